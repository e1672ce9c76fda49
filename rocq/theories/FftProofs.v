Require Import List Arith ZArith Reals Bool Lia Lra Ring FunctionalExtensionality.
Require Import Verif.RVec Verif.Cplx Verif.FftModel.
Import ListNotations.
Local Open Scope R_scope.

(** ** One dimension *)
Lemma INR_pos n : (0 < n)%nat -> 0 < INR n. Proof. apply lt_0_INR. Qed.

Lemma dft_ext n x y k : (forall j, (j < n)%nat -> x j = y j) -> dft n x k = dft n y k.
Proof. intros H. apply csumn_ext. intros j Hj. rewrite (H j Hj). reflexivity. Qed.
Lemma idft_ext n x y k : (forall j, (j < n)%nat -> x j = y j) -> idft n x k = idft n y k.
Proof. intros H. unfold idft. f_equal. apply csumn_ext. intros j Hj. rewrite (H j Hj). reflexivity. Qed.

Lemma parseval n x : (0 < n)%nat -> sumn n (fun k => cabs2 (dft n x k)) = INR n * sumn n (fun j => cabs2 (x j)).
Proof.
  intros Hn.
  assert (E : csumn n (fun k => cmul (dft n x k) (conj (dft n x k))) = cmul (ofR (INR n)) (csumn n (fun j => cmul (x j) (conj (x j))))).
  { unfold dft.
    rewrite (csumn_ext n _ (fun k => csumn n (fun j => csumn n (fun i => cmul (cmul (x j) (conj (x i))) (ru n (Z.of_nat k * (Z.of_nat i - Z.of_nat j))))))).
    2: { intros k Hk. rewrite csumn_conj, <- csumn_scal_r. apply csumn_ext. intros j Hj. rewrite <- csumn_scal. apply csumn_ext. intros i Hi.
         rewrite conj_mul, ru_conj, Z.opp_involutive.
         replace (Z.of_nat k * (Z.of_nat i - Z.of_nat j))%Z with (- (Z.of_nat j * Z.of_nat k) + Z.of_nat i * Z.of_nat k)%Z by ring.
         rewrite ru_add. ring. }
    rewrite csumn_swap. rewrite <- csumn_scal. apply csumn_ext. intros j Hj. rewrite csumn_swap.
    rewrite (csumn_ext n _ (fun i => if Nat.eqb i j then cmul (cmul (x j) (conj (x i))) (ofR (INR n)) else c0)).
    - rewrite csumn_delta by exact Hj. ring.
    - intros i Hi. rewrite csumn_scal, ru_orth by assumption. destruct (Nat.eqb i j); ring. }
  assert (F : forall f, csumn n (fun k => cmul (f k) (conj (f k))) = ofR (sumn n (fun k => cabs2 (f k)))).
  { intros f. rewrite <- csumn_ofR. apply csumn_ext. intros. apply mul_conj. }
  rewrite !F in E. apply (f_equal re) in E. unfold cmul, ofR, re, im in E. simpl in E. lra.
Qed.

Lemma csub_mod n m j : (j < n)%nat -> (m < n)%nat -> Z.of_nat ((m + n - j) mod n) = ((Z.of_nat m - Z.of_nat j) mod Z.of_nat n)%Z.
Proof.
  intros Hj Hm. rewrite Nat2Z.inj_mod. replace (Z.of_nat (m + n - j)) with ((Z.of_nat m - Z.of_nat j) + 1 * Z.of_nat n)%Z by lia.
  apply Z.mod_add. lia.
Qed.

Lemma cscal_INR n z : (0 < n)%nat -> cscal (/ INR n) (cmul (ofR (INR n)) z) = z.
Proof. intros H. pose proof (INR_pos n H). ceq; field; lra. Qed.

Lemma cscal_csumn n r f : cscal r (csumn n f) = csumn n (fun i => cscal r (f i)).
Proof. rewrite cscal_mul, <- csumn_scal. apply csumn_ext. intros. rewrite cscal_mul. reflexivity. Qed.

(** Inverse of the product of two spectra. *)
Lemma idft_prod n u v m : (m < n)%nat ->
  idft n (fun k => cmul (dft n u k) (dft n v k)) m = csumn n (fun j => cmul (u j) (v ((m + n - j) mod n)%nat)).
Proof.
  intros Hm. assert (Hn : (0 < n)%nat) by lia. unfold idft, dft.
  rewrite (csumn_ext n _ (fun k => csumn n (fun j => csumn n (fun i => cmul (cmul (u j) (v i)) (ru n (Z.of_nat k * (Z.of_nat ((m + n - j) mod n) - Z.of_nat i))))))).
  2: { intros k Hk. rewrite <- csumn_scal_r, <- csumn_scal_r. apply csumn_ext. intros j Hj. rewrite <- csumn_scal, <- csumn_scal_r. apply csumn_ext. intros i Hi.
       rewrite csub_mod by assumption.
       rewrite (ru_mod n (Z.of_nat k * ((Z.of_nat m - Z.of_nat j) mod Z.of_nat n - Z.of_nat i))
          (Z.of_nat m * Z.of_nat k + (- (Z.of_nat j * Z.of_nat k) + - (Z.of_nat i * Z.of_nat k)))); [rewrite !ru_add; ring|exact Hn|].
       replace (Z.of_nat m * Z.of_nat k + (- (Z.of_nat j * Z.of_nat k) + - (Z.of_nat i * Z.of_nat k)))%Z with (Z.of_nat k * ((Z.of_nat m - Z.of_nat j) - Z.of_nat i))%Z by ring.
       rewrite Z.mul_mod, Zminus_mod_idemp_l, <- Z.mul_mod by lia. reflexivity. }
  rewrite csumn_swap. rewrite cscal_csumn. apply csumn_ext. intros j Hj. rewrite csumn_swap.
  rewrite (csumn_ext n _ (fun i => if Nat.eqb i ((m + n - j) mod n) then cmul (cmul (u j) (v i)) (ofR (INR n)) else c0)).
  - rewrite csumn_delta by (apply Nat.mod_upper_bound; lia).
    transitivity (cscal (/ INR n) (cmul (ofR (INR n)) (cmul (u j) (v ((m + n - j) mod n)%nat)))); [f_equal; ring|apply cscal_INR; exact Hn].
  - intros i Hi. rewrite csumn_scal, ru_orth by (try apply Nat.mod_upper_bound; lia). rewrite Nat.eqb_sym. destruct (Nat.eqb i _); ring.
Qed.

Lemma idft_dft n x m : (m < n)%nat -> idft n (dft n x) m = x m.
Proof.
  intros Hm. assert (Hn : (0 < n)%nat) by lia.
  rewrite (idft_ext n _ (fun k => cmul (dft n x k) (dft n (fun j => if Nat.eqb j 0 then c1 else c0) k))).
  - rewrite idft_prod by exact Hm.
    rewrite (csumn_ext n _ (fun j => if Nat.eqb j m then x j else c0)).
    + apply csumn_delta. exact Hm.
    + intros j Hj. destruct (Nat.eqb_spec j m) as [->|Ne].
      * replace (m + n - m)%nat with n by lia. rewrite Nat.mod_same by lia. simpl. ring.
      * destruct (Nat.eqb_spec ((m + n - j) mod n) 0) as [E|E]; [|ring]. exfalso.
        apply Nat.mod_divides in E; [|lia]. destruct E as (c & Ec). destruct c as [|[|c]]; nia.
  - intros k Hk. unfold dft at 3.
    rewrite (csumn_ext n _ (fun j => if Nat.eqb j 0 then c1 else c0)).
    + rewrite csumn_delta by exact Hn. ring.
    + intros j Hj. destruct (Nat.eqb_spec j 0) as [->|]; [|ring]. replace (- (Z.of_nat 0 * Z.of_nat k))%Z with 0%Z by lia. rewrite ru_0. ring.
Qed.

(** ** Half spectra *)
Definition hermitian (n : nat) (h : nat -> C) : Prop := forall k, (0 < k < n)%nat -> h (n - k)%nat = conj (h k).

Lemma dft_hermitian n (x : nat -> R) : hermitian n (dft n (fun j => ofR (x j))).
Proof.
  intros k Hk. unfold dft. rewrite csumn_conj. apply csumn_ext. intros j Hj. rewrite conj_mul, conj_ofR, ru_conj. f_equal.
  apply ru_mod; [lia|]. rewrite Z.opp_involutive.
  replace (- (Z.of_nat j * Z.of_nat (n - k)))%Z with (Z.of_nat j * Z.of_nat k + (- Z.of_nat j) * Z.of_nat n)%Z by (rewrite Nat2Z.inj_sub by lia; ring).
  apply Z.mod_add. lia.
Qed.
Lemma dft_0_real n (x : nat -> R) : im (dft n (fun j => ofR (x j)) O) = 0.
Proof.
  unfold dft. rewrite (csumn_ext n _ (fun j => ofR (x j))).
  - rewrite csumn_ofR. reflexivity.
  - intros j Hj. replace (- (Z.of_nat j * Z.of_nat 0))%Z with 0%Z by lia. rewrite ru_0. ring.
Qed.

(** A sum over a whole period is twice the sum over the inner half, plus the ends. *)
Lemma half_sum n (f : nat -> R) : (0 < n)%nat -> (forall k, (0 < k < n)%nat -> f (n - k)%nat = f k) ->
  sumn n f = f O + 2 * sumn ((n + 1) / 2 - 1) (fun k => f (S k)) + (if Nat.even n then f (n / 2)%nat else 0).
Proof.
  intros Hn H. destruct n as [|n]; [lia|]. rewrite sumn_first.
  destruct (Nat.even (S n)) eqn:Ev.
  - apply Nat.even_spec in Ev. destruct Ev as (h & Eh). destruct h as [|h]; [lia|].
    assert (Eh1 : ((S n + 1) / 2 = S h)%nat) by (symmetry; apply Nat.div_unique with 1%nat; lia).
    assert (Eh2 : ((S n) / 2 = S h)%nat) by (symmetry; apply Nat.div_unique with 0%nat; lia).
    rewrite Eh1, Eh2. replace (S h - 1)%nat with h by lia.
    replace n with (h + S h)%nat at 1 by lia. rewrite sumn_split, sumn_first. rewrite Nat.add_0_r.
    replace (sumn h (fun i => f (S (h + S i)))) with (sumn h (fun i => f (S i))); [lra|].
    rewrite sumn_rev. apply sumn_ext. intros i Hi. rewrite <- (H (S (h - 1 - i)))%nat by lia. f_equal. lia.
  - assert (Od : Nat.odd (S n) = true) by (rewrite <- Nat.negb_even, Ev; reflexivity).
    apply Nat.odd_spec in Od. destruct Od as (h & Eh).
    assert (Eh1 : ((S n + 1) / 2 = S h)%nat) by (symmetry; apply Nat.div_unique with 0%nat; lia).
    rewrite Eh1. replace (S h - 1)%nat with h by lia.
    replace n with (h + h)%nat at 1 by lia. rewrite sumn_split.
    replace (sumn h (fun i => f (S (h + i)))) with (sumn h (fun i => f (S i))); [lra|].
    rewrite sumn_rev. apply sumn_ext. intros i Hi. rewrite <- (H (S (h - 1 - i)))%nat by lia. f_equal. lia.
Qed.

Lemma rfft_norm n (x : nat -> R) : (0 < n)%nat ->
  let h := dft n (fun j => ofR (x j)) in
  cabs2 (h O) + 2 * sumn ((n + 1) / 2 - 1) (fun k => cabs2 (h (S k))) + (if Nat.even n then cabs2 (h (n / 2)%nat) else 0)
  = INR n * sumn n (fun j => x j * x j).
Proof.
  intros Hn h. rewrite <- (half_sum n (fun k => cabs2 (h k)) Hn).
  - unfold h. rewrite parseval by exact Hn. f_equal. apply sumn_ext. intros j _. unfold cabs2, ofR, re, im. simpl. ring.
  - intros k Hk. unfold h. rewrite (dft_hermitian n x k Hk). apply cabs2_conj.
Qed.

Lemma irfft_idft n h m : (0 < n)%nat -> hermitian n h -> im (h O) = 0 -> idft n h m = ofR (irfft n h m).
Proof.
  intros Hn Hh H0.
  set (f := fun k => cmul (h k) (ru n (Z.of_nat m * Z.of_nat k))).
  assert (Sy : forall k, (0 < k < n)%nat -> f (n - k)%nat = conj (f k)).
  { intros k Hk. unfold f. rewrite conj_mul, <- (Hh k Hk), ru_conj. f_equal. apply ru_mod; [exact Hn|].
    replace (Z.of_nat m * Z.of_nat (n - k))%Z with (- (Z.of_nat m * Z.of_nat k) + Z.of_nat m * Z.of_nat n)%Z by (rewrite Nat2Z.inj_sub by lia; ring).
    apply Z.mod_add. lia. }
  assert (f0 : f O = h O).
  { unfold f. replace (Z.of_nat m * Z.of_nat 0)%Z with 0%Z by lia. rewrite ru_0. ring. }
  unfold idft. fold f. apply c_eq.
  1: change (/ INR n * sumn n (fun i => re (f i)) = irfft n h m).
  2: change (/ INR n * sumn n (fun i => im (f i)) = 0).
  - unfold irfft. f_equal. rewrite (half_sum n (fun i => re (f i)) Hn) by (intros k Hk; rewrite (Sy k Hk); reflexivity).
    rewrite f0. f_equal. destruct (Nat.even n) eqn:Ev; [|reflexivity].
    assert (I0 : im (h (n / 2)%nat) = 0).
    { apply Nat.even_spec in Ev. destruct Ev as (q & Eq). assert (E2 : (n / 2 = q)%nat) by (symmetry; apply Nat.div_unique with 0%nat; lia).
      rewrite E2. pose proof (Hh q ltac:(lia)) as K. replace (n - q)%nat with q in K by lia.
      apply (f_equal im) in K. unfold conj, im in *. simpl in K. lra. }
    unfold f. set (w := ru n _). change (re (cmul (h (n / 2)%nat) w)) with (re (h (n / 2)%nat) * re w - im (h (n / 2)%nat) * im w). rewrite I0. ring.
  - replace (sumn n (fun i => im (f i))) with 0; [ring|].
    destruct n as [|n]; [lia|]. rewrite sumn_first, f0, H0.
    assert (Q : sumn n (fun i => im (f (S i))) = - sumn n (fun i => im (f (S i)))); [|lra].
    transitivity (sumn n (fun i => im (f (S (n - 1 - i))))); [apply (sumn_rev n (fun i => im (f (S i))))|].
    rewrite <- sumn_opp. apply sumn_ext.
    intros i Hi. replace (S (n - 1 - i)) with (S n - (S i))%nat by lia. rewrite Sy by lia. reflexivity.
Qed.

Lemma irfft_ext n h g m : (0 < n)%nat -> (forall k, (k < n / 2 + 1)%nat -> h k = g k) -> irfft n h m = irfft n g m.
Proof.
  intros Hn H. unfold irfft. f_equal. f_equal; [f_equal|].
  - rewrite H by lia. reflexivity.
  - f_equal. apply sumn_ext. intros k Hk. rewrite H; [reflexivity|].
    assert ((n + 1) / 2 <= n / 2 + 1)%nat by (apply Nat.lt_succ_r; apply Nat.div_lt_upper_bound; [lia|]; pose proof (Nat.mod_upper_bound n 2); pose proof (Nat.div_mod n 2); lia). lia.
  - destruct (Nat.even n); [|reflexivity]. rewrite H by lia. reflexivity.
Qed.

Lemma irfft_prod n (u v : nat -> R) m : (m < n)%nat ->
  irfft n (fun k => cmul (dft n (fun j => ofR (u j)) k) (dft n (fun j => ofR (v j)) k)) m = sumn n (fun j => u j * v ((m + n - j) mod n)%nat).
Proof.
  intros Hm. rewrite <- (re_ofR (irfft _ _ _)), <- irfft_idft.
  - rewrite idft_prod by exact Hm. rewrite (csumn_ext n _ (fun j => ofR (u j * v ((m + n - j) mod n)%nat))).
    + rewrite csumn_ofR. reflexivity.
    + intros. ceq; ring.
  - lia.
  - intros k Hk. rewrite !(dft_hermitian n _ k Hk), conj_mul. reflexivity.
  - set (a := dft n _ O). set (b := dft n _ O). change (im (cmul a b)) with (re a * im b + im a * re b). unfold a, b. rewrite !dft_0_real. ring.
Qed.

Lemma irfft_dft n (x : nat -> R) m : (m < n)%nat -> irfft n (dft n (fun j => ofR (x j))) m = x m.
Proof.
  intros Hm. rewrite <- (re_ofR (irfft _ _ _)), <- irfft_idft.
  - rewrite idft_dft by exact Hm. reflexivity.
  - lia.
  - apply dft_hermitian.
  - apply dft_0_real.
Qed.

(** ** Several dimensions *)
Lemma upd_same idx ax j : upd idx ax j ax = j.
Proof. unfold upd. rewrite Nat.eqb_refl. reflexivity. Qed.
Lemma upd_other idx ax j k : k <> ax -> upd idx ax j k = idx k.
Proof. intros H. unfold upd. destruct (Nat.eqb_spec k ax); [contradiction|reflexivity]. Qed.
Lemma upd_upd idx ax i j : upd (upd idx ax i) ax j = upd idx ax j.
Proof. extensionality k. unfold upd. destruct (Nat.eqb k ax); reflexivity. Qed.
Lemma upd_self idx ax : upd idx ax (idx ax) = idx.
Proof. extensionality k. unfold upd. destruct (Nat.eqb_spec k ax) as [->|]; reflexivity. Qed.
Lemma upd_comm idx a b i j : a <> b -> upd (upd idx a i) b j = upd (upd idx b j) a i.
Proof. intros H. extensionality k. unfold upd. destruct (Nat.eqb_spec k a), (Nat.eqb_spec k b); congruence. Qed.

Lemma mem_in ax axes : mem ax axes = true <-> In ax axes.
Proof.
  unfold mem. rewrite existsb_exists. split.
  - intros (y & H1 & H2). apply Nat.eqb_eq in H2. subst. exact H1.
  - intros H. exists ax. split; [exact H|apply Nat.eqb_refl].
Qed.

Definition asum (s : nat -> nat) (axes : list nat) (f : index -> C) (idx : index) : C :=
  (rsum s axes (fun i => re (f i)) idx, rsum s axes (fun i => im (f i)) idx).

Lemma asum_nil s f idx : asum s [] f idx = f idx.
Proof. unfold asum. simpl. destruct (f idx); reflexivity. Qed.
Lemma asum_cons s ax r f idx : asum s (ax :: r) f idx = csumn (s ax) (fun j => asum s r f (upd idx ax j)).
Proof. reflexivity. Qed.
Lemma rsum_ext s axes f g : (forall i, f i = g i) -> forall idx, rsum s axes f idx = rsum s axes g idx.
Proof. intros H. induction axes as [|ax r IH]; intros idx; simpl; [apply H|]. apply sumn_ext. intros j _. apply IH. Qed.
Lemma asum_ext s axes f g idx : (forall i, f i = g i) -> asum s axes f idx = asum s axes g idx.
Proof. intros H. unfold asum. f_equal; apply rsum_ext; intros i; rewrite H; reflexivity. Qed.
(** Only the indices visited matter. *)
Lemma rsum_ext_in s axes f g : forall idx,
  (forall i, (forall ax, In ax axes -> (i ax < s ax)%nat) -> (forall ax, ~ In ax axes -> i ax = idx ax) -> f i = g i) ->
  rsum s axes f idx = rsum s axes g idx.
Proof.
  induction axes as [|ax r IH]; intros idx H; simpl.
  - apply H; [intros ? []|reflexivity].
  - apply sumn_ext. intros j Hj. apply IH. intros i H1 H2. apply H.
    + intros b [<-|Hb]; [|apply H1; exact Hb]. destruct (in_dec Nat.eq_dec ax r) as [I|I]; [apply H1; exact I|rewrite (H2 ax I), upd_same; exact Hj].
    + intros b Hb. rewrite H2 by (intros I; apply Hb; right; exact I). apply upd_other. intros ->. apply Hb. left. reflexivity.
Qed.
Lemma asum_ext_in s axes f g idx :
  (forall i, (forall ax, In ax axes -> (i ax < s ax)%nat) -> (forall ax, ~ In ax axes -> i ax = idx ax) -> f i = g i) ->
  asum s axes f idx = asum s axes g idx.
Proof. intros H. unfold asum. f_equal; apply rsum_ext_in; intros i H1 H2; rewrite (H i H1 H2); reflexivity. Qed.

Lemma rsum_sumn s axes n f : forall idx, rsum s axes (fun i => sumn n (fun j => f j i)) idx = sumn n (fun j => rsum s axes (f j) idx).
Proof.
  induction axes as [|ax r IH]; intros idx; simpl; [reflexivity|]. rewrite sumn_swap. apply sumn_ext. intros j _. apply IH.
Qed.
Lemma asum_csumn s axes n f idx : asum s axes (fun i => csumn n (fun j => f j i)) idx = csumn n (fun j => asum s axes (f j) idx).
Proof. unfold asum, csumn. simpl. f_equal; apply rsum_sumn. Qed.
Lemma rsum_scal s axes c f : forall idx, rsum s axes (fun i => c * f i) idx = c * rsum s axes f idx.
Proof.
  induction axes as [|ax r IH]; intros idx; simpl; [reflexivity|]. rewrite <- sumn_scal. apply sumn_ext. intros j _. apply IH.
Qed.
Lemma rsum_plus s axes f g : forall idx, rsum s axes (fun i => f i + g i) idx = rsum s axes f idx + rsum s axes g idx.
Proof.
  induction axes as [|ax r IH]; intros idx; simpl; [reflexivity|]. rewrite <- sumn_plus. apply sumn_ext. intros j _. apply IH.
Qed.
Lemma asum_scal s axes c f idx : asum s axes (fun i => cmul c (f i)) idx = cmul c (asum s axes f idx).
Proof.
  apply c_eq.
  - change (rsum s axes (fun i => re c * re (f i) - im c * im (f i)) idx = re c * rsum s axes (fun i => re (f i)) idx - im c * rsum s axes (fun i => im (f i)) idx).
    rewrite (rsum_ext s axes _ (fun i => re c * re (f i) + - im c * im (f i))) by (intros; ring).
    rewrite rsum_plus, !rsum_scal. ring.
  - change (rsum s axes (fun i => re c * im (f i) + im c * re (f i)) idx = re c * rsum s axes (fun i => im (f i)) idx + im c * rsum s axes (fun i => re (f i)) idx).
    rewrite rsum_plus, !rsum_scal. reflexivity.
Qed.
Lemma asum_upd s axes f ax j : ~ In ax axes -> forall idx, asum s axes f (upd idx ax j) = asum s axes (fun i => f (upd i ax j)) idx.
Proof.
  induction axes as [|b r IH]; intros H idx.
  - rewrite !asum_nil. reflexivity.
  - rewrite !asum_cons. apply csumn_ext. intros i _. rewrite upd_comm by (intros ->; apply H; left; reflexivity).
    apply IH. intros I. apply H. right. exact I.
Qed.
Lemma rsum_upd s axes f ax j : ~ In ax axes -> forall idx, rsum s axes f (upd idx ax j) = rsum s axes (fun i => f (upd i ax j)) idx.
Proof.
  induction axes as [|b r IH]; intros H idx; simpl; [reflexivity|].
  apply sumn_ext. intros i _. rewrite upd_comm by (intros ->; apply H; left; reflexivity).
  apply IH. intros I. apply H. right. exact I.
Qed.

(** Transforms along different axes commute. *)
Lemma dft_ax_comm s a b x : a <> b -> dft_ax s a (dft_ax s b x) = dft_ax s b (dft_ax s a x).
Proof.
  intros H. extensionality idx. unfold dft_ax, dft.
  transitivity (csumn (s a) (fun j => csumn (s b) (fun i => cmul (x (upd (upd idx a j) b i)) (cmul (ru (s b) (- (Z.of_nat i * Z.of_nat (idx b)))) (ru (s a) (- (Z.of_nat j * Z.of_nat (idx a)))))))).
  { apply csumn_ext. intros j _. rewrite <- csumn_scal_r. apply csumn_ext. intros i _. rewrite upd_other by congruence. ring. }
  rewrite csumn_swap. apply csumn_ext. intros i _. rewrite <- csumn_scal_r. apply csumn_ext. intros j _.
  rewrite upd_other by congruence. rewrite (upd_comm idx a b) by exact H. ring.
Qed.
Lemma fftn_dft_ax s r ax x : ~ In ax r -> dft_ax s ax (fftn s r x) = fftn s r (dft_ax s ax x).
Proof.
  induction r as [|b r IH]; intros H; simpl; [reflexivity|].
  rewrite dft_ax_comm by (intros ->; apply H; left; reflexivity). rewrite IH by (intros I; apply H; right; exact I). reflexivity.
Qed.

(** Circular difference of indices along [axes]. *)
Definition cdiff (s : nat -> nat) (axes : list nat) (idx m : index) : index :=
  fun ax => if mem ax axes then ((idx ax + s ax - m ax) mod s ax)%nat else idx ax.

Lemma cdiff_cons s ax r idx m k j : ~ In ax r -> cdiff s r (upd idx ax k) m = upd (cdiff s r idx m) ax k /\
  upd (cdiff s r idx m) ax ((idx ax + s ax - j) mod s ax)%nat = cdiff s (ax :: r) idx (upd m ax j).
Proof.
  intros H. assert (M : mem ax r = false) by (destruct (mem ax r) eqn:E; [apply mem_in in E; contradiction|reflexivity]).
  split; extensionality b; unfold cdiff, upd.
  - destruct (Nat.eqb_spec b ax) as [->|N]; [rewrite M; reflexivity|reflexivity].
  - change (mem b (ax :: r)) with (Nat.eqb b ax || mem b r)%bool. destruct (Nat.eqb_spec b ax) as [->|N]; reflexivity.
Qed.

Lemma idft_linear n N (h : nat -> nat -> C) m : idft n (fun k => csumn N (fun j => h j k)) m = csumn N (fun j => idft n (h j) m).
Proof.
  unfold idft. rewrite <- cscal_csumn. f_equal.
  rewrite (csumn_ext n _ (fun k => csumn N (fun j => cmul (h j k) (ru n (Z.of_nat m * Z.of_nat k))))) by (intros; rewrite csumn_scal_r; reflexivity).
  apply csumn_swap.
Qed.
Lemma idft_asum n s axes (h : index -> nat -> C) m : forall idx,
  idft n (fun k => asum s axes (fun i => h i k) idx) m = asum s axes (fun i => idft n (h i) m) idx.
Proof.
  induction axes as [|ax r IH]; intros idx.
  - rewrite asum_nil. apply idft_ext. intros. rewrite asum_nil. reflexivity.
  - rewrite asum_cons. rewrite (idft_ext n _ (fun k => csumn (s ax) (fun j => asum s r (fun i => h i k) (upd idx ax j)))) by (intros; apply asum_cons).
    rewrite idft_linear. apply csumn_ext. intros j _. apply IH.
Qed.

Lemma ifftn_ext s axes x y : (forall i, x i = y i) -> ifftn s axes x = ifftn s axes y.
Proof. intros H. f_equal. extensionality i. apply H. Qed.

(** The convolution theorem. *)
Lemma conv_thm s axes : NoDup axes -> forall u v idx, (forall ax, In ax axes -> (idx ax < s ax)%nat) ->
  ifftn s axes (fun i => cmul (fftn s axes u i) (fftn s axes v i)) idx = asum s axes (fun m => cmul (u m) (v (cdiff s axes idx m))) idx.
Proof.
  induction axes as [|ax r IH]; intros ND u v idx Hi.
  - rewrite asum_nil. reflexivity.
  - inversion ND as [|? ? N1 N2]; subst.
    assert (E : forall w, fftn s (ax :: r) w = fftn s r (dft_ax s ax w)) by (intros w; apply fftn_dft_ax; exact N1).
    rewrite !E. change (ifftn s (ax :: r) ?g) with (idft_ax s ax (ifftn s r g)). unfold idft_ax.
    rewrite (idft_ext _ _ (fun k => asum s r (fun m => cmul (dft (s ax) (fun j => u (upd m ax j)) k) (dft (s ax) (fun j => v (upd (cdiff s r idx m) ax j)) k)) idx)).
    2: { intros k Hk. rewrite IH; [|exact N2|].
         - rewrite asum_upd by exact N1. apply asum_ext. intros m. destruct (cdiff_cons s ax r idx (upd m ax k) k O N1) as [-> _].
           unfold dft_ax. rewrite !upd_same. f_equal; apply dft_ext; intros j _; rewrite upd_upd; [reflexivity|].
           f_equal. unfold cdiff. extensionality b. unfold upd.
           destruct (Nat.eqb_spec b ax) as [->|Nb]; [reflexivity|]. reflexivity.
         - intros b Hb. rewrite upd_other by (intros ->; contradiction). apply Hi. right. exact Hb. }
    rewrite idft_asum, asum_cons.
    transitivity (asum s r (fun m => csumn (s ax) (fun j => cmul (u (upd m ax j)) (v (cdiff s (ax :: r) idx (upd m ax j))))) idx).
    + apply asum_ext. intros m. rewrite idft_prod by (apply Hi; left; reflexivity). apply csumn_ext. intros j _.
      destruct (cdiff_cons s ax r idx m O j N1) as [_ ->]. reflexivity.
    + rewrite asum_csumn. apply csumn_ext. intros j _. rewrite asum_upd by exact N1. reflexivity.
Qed.

(** ** Norms *)
Lemma parseval_ax s L ax y : In ax L -> NoDup L -> (0 < s ax)%nat -> forall idx,
  rsum s L (fun i => cabs2 (dft_ax s ax y i)) idx = INR (s ax) * rsum s L (fun i => cabs2 (y i)) idx.
Proof.
  intros Hin ND Hs. induction L as [|b r IH]; intros idx; [destruct Hin|]. inversion ND as [|? ? N1 N2]; subst. simpl.
  rewrite <- sumn_scal. destruct (Nat.eq_dec b ax) as [->|Ne].
  - rewrite sumn_scal.
    rewrite (sumn_ext (s ax) _ (fun j => rsum s r (fun i => cabs2 (dft_ax s ax y (upd i ax j))) idx)) by (intros; apply rsum_upd; exact N1).
    rewrite <- rsum_sumn.
    rewrite (sumn_ext (s ax) _ (fun j => rsum s r (fun i => cabs2 (y (upd i ax j))) idx)) by (intros; apply (rsum_upd s r (fun i => cabs2 (y i))); exact N1).
    rewrite <- rsum_sumn, <- rsum_scal. apply rsum_ext. intros i.
    rewrite <- (parseval (s ax) (fun j => y (upd i ax j)) Hs). apply sumn_ext. intros k _.
    unfold dft_ax. rewrite upd_same. f_equal. apply dft_ext. intros j _. rewrite upd_upd. reflexivity.
  - apply sumn_ext. intros j _. apply IH; [destruct Hin; [contradiction|assumption]|exact N2].
Qed.
Lemma parseval_axes s L axes y : (forall ax, In ax axes -> In ax L /\ (0 < s ax)%nat) -> NoDup L -> forall idx,
  rsum s L (fun i => cabs2 (fftn s axes y i)) idx = prodn s axes * rsum s L (fun i => cabs2 (y i)) idx.
Proof.
  intros H ND idx. induction axes as [|ax r IH]; simpl; [ring|].
  destruct (H ax (or_introl eq_refl)) as [H1 H2]. rewrite parseval_ax by assumption. rewrite IH by (intros a Ha; apply H; right; exact Ha). ring.
Qed.
Lemma rsum_pull s l L f : In l L -> NoDup L -> forall idx,
  rsum s L f idx = rsum s (filter (fun ax => negb (Nat.eqb ax l)) L) (fun i => sumn (s l) (fun j => f (upd i l j))) idx.
Proof.
  intros Hin ND. induction L as [|b r IH]; intros idx; [destruct Hin|]. inversion ND as [|? ? N1 N2]; subst. simpl.
  destruct (Nat.eqb_spec b l) as [->|Ne]; simpl.
  - assert (F : filter (fun ax => negb (Nat.eqb ax l)) r = r).
    { clear IH Hin ND. induction r as [|c r IH]; [reflexivity|]. simpl. destruct (Nat.eqb_spec c l) as [->|]; [exfalso; apply N1; left; reflexivity|].
      simpl. f_equal. apply IH; [intros I; apply N1; right; exact I|inversion N2; assumption]. }
    rewrite F, rsum_sumn. apply sumn_ext. intros j _. apply rsum_upd. exact N1.
  - apply sumn_ext. intros j _. apply IH; [destruct Hin; [contradiction|assumption]|exact N2].
Qed.
Lemma prodn_app s a b : prodn s (a ++ b) = prodn s a * prodn s b.
Proof. induction a as [|x a IH]; simpl; [ring|rewrite IH; ring]. Qed.
Lemma prodn_pos s axes : (forall ax, In ax axes -> (0 < s ax)%nat) -> 0 < prodn s axes.
Proof.
  induction axes as [|ax r IH]; intros H; simpl; [lra|]. apply Rmult_lt_0_compat; [apply INR_pos; apply H; left; reflexivity|apply IH; intros; apply H; right; assumption].
Qed.

(** ** Broadcasting and padding commute with the transforms *)
Lemma bc_upd sa axes ax i j : In ax axes -> bc sa axes (upd i ax j) = upd (bc sa axes i) ax j.
Proof.
  intros H. apply mem_in in H. extensionality b. unfold bc, upd. destruct (Nat.eqb_spec b ax) as [->|]; [rewrite H; reflexivity|reflexivity].
Qed.
Lemma bc_at sa axes ax i : In ax axes -> bc sa axes i ax = i ax.
Proof. intros H. apply mem_in in H. unfold bc. rewrite H. reflexivity. Qed.
Lemma dft_ax_bc s sa axes ax x i : In ax axes -> dft_ax s ax x (bc sa axes i) = dft_ax s ax (fun k => x (bc sa axes k)) i.
Proof.
  intros H. unfold dft_ax. rewrite bc_at by exact H. apply dft_ext. intros j _. rewrite bc_upd by exact H. reflexivity.
Qed.
Lemma fftn_bc s sa axes L x : (forall ax, In ax L -> In ax axes) -> forall i, fftn s L x (bc sa axes i) = fftn s L (fun k => x (bc sa axes k)) i.
Proof.
  induction L as [|ax r IH]; intros H i; simpl; [reflexivity|].
  rewrite dft_ax_bc by (apply H; left; reflexivity). f_equal. extensionality k. apply IH. intros; apply H; right; assumption.
Qed.

(** ** Shifts *)
Fixpoint offset (axes : list nat) (o : list Z) (ax : nat) : Z :=
  match axes, o with
  | a :: r, z :: t => if Nat.eqb a ax then z else offset r t ax
  | _, _ => 0%Z
  end.
Lemma roll_idx_at s axes : NoDup axes -> forall (o : list Z) idx ax, length o = length axes ->
  roll_idx s (combine axes o) idx ax =
  if mem ax axes then Z.to_nat ((Z.of_nat (idx ax) + offset axes o ax) mod Z.of_nat (s ax)) else idx ax.
Proof.
  intros ND. induction axes as [|a r IH]; intros o idx ax L; [reflexivity|]. destruct o as [|z o]; [discriminate|].
  inversion ND as [|? ? N1 N2]; subst. injection L as L. cbn [combine roll_idx fold_right fst snd offset].
  fold (roll_idx s (combine r o) idx). change (mem ax (a :: r)) with (Nat.eqb ax a || mem ax r)%bool.
  unfold upd. rewrite (Nat.eqb_sym a ax). destruct (Nat.eqb_spec ax a) as [->|N]; simpl.
  - assert (M : mem a r = false) by (destruct (mem a r) eqn:E; [apply mem_in in E; contradiction|reflexivity]).
    rewrite IH by assumption. rewrite M. reflexivity.
  - apply IH; assumption.
Qed.

(** ** Linearity of the half spectrum inverse *)
Lemma irfft_csumn n N (h : nat -> nat -> C) m : irfft n (fun k => csumn N (fun j => h j k)) m = sumn N (fun j => irfft n (h j) m).
Proof.
  unfold irfft. rewrite sumn_scal. f_equal. rewrite !sumn_plus. f_equal; [f_equal|].
  - rewrite sumn_scal. f_equal. rewrite sumn_swap. apply sumn_ext. intros k _.
    rewrite <- (csumn_scal_r N (ru n (Z.of_nat m * Z.of_nat (S k)))). reflexivity.
  - destruct (Nat.even n); [|symmetry; apply sumn_0; reflexivity]. rewrite sumn_scal_r. reflexivity.
Qed.
Lemma irfft_asum n s axes (h : index -> nat -> C) m : forall idx,
  irfft n (fun k => asum s axes (fun i => h i k) idx) m = rsum s axes (fun i => irfft n (h i) m) idx.
Proof.
  induction axes as [|ax r IH]; intros idx; simpl.
  - f_equal. extensionality k. apply asum_nil.
  - rewrite <- (sumn_ext (s ax) (fun j => irfft n (fun k => asum s r (fun i => h i k) (upd idx ax j)) m)) by (intros; apply IH).
    rewrite <- irfft_csumn. f_equal.
Qed.
Lemma rsum_snoc s r l f : forall idx, rsum s (r ++ [l]) f idx = rsum s r (fun i => sumn (s l) (fun j => f (upd i l j))) idx.
Proof. induction r as [|ax r IH]; intros idx; simpl; [reflexivity|]. apply sumn_ext. intros. apply IH. Qed.
Lemma cdiff_snoc s l r idx m j : ~ In l r -> upd (cdiff s r idx m) l ((idx l + s l - j) mod s l)%nat = cdiff s (r ++ [l]) idx (upd m l j).
Proof.
  intros H. extensionality b. unfold cdiff, upd, mem. rewrite existsb_app. simpl. rewrite orb_false_r.
  destruct (Nat.eqb_spec b l) as [->|N]; [rewrite orb_true_r; reflexivity|rewrite orb_false_r; reflexivity].
Qed.

Lemma conv_thm_real s r l u v idx : NoDup (r ++ [l]) -> (forall ax, In ax (r ++ [l]) -> (idx ax < s ax)%nat) ->
  irfftn s (r ++ [l]) (fun i => cmul (rfftn s (r ++ [l]) u i) (rfftn s (r ++ [l]) v i)) idx =
  rsum s (r ++ [l]) (fun m => u m * v (cdiff s (r ++ [l]) idx m)) idx.
Proof.
  intros ND Hi. unfold irfftn, rfftn. rewrite last_last, removelast_last.
  assert (N1 : ~ In l r) by (apply NoDup_remove_2 in ND; rewrite app_nil_r in ND; exact ND).
  assert (N2 : NoDup r) by (apply NoDup_remove_1 in ND; rewrite app_nil_r in ND; exact ND).
  rewrite (irfft_ext _ _ (fun k => asum s r (fun m => cmul (dft (s l) (fun j => ofR (u (upd m l j))) k) (dft (s l) (fun j => ofR (v (upd (cdiff s r idx m) l j))) k)) idx)).
  - rewrite irfft_asum, rsum_snoc. apply rsum_ext. intros m.
    rewrite irfft_prod by (apply Hi; apply in_or_app; right; left; reflexivity). apply sumn_ext. intros j _. rewrite (cdiff_snoc s l r idx m j N1). reflexivity.
  - specialize (Hi l ltac:(apply in_or_app; right; left; reflexivity)). lia.
  - intros k _. rewrite conv_thm; [|exact N2|].
    + rewrite asum_upd by exact N1. apply asum_ext. intros m. destruct (cdiff_cons s l r idx (upd m l k) k O N1) as [-> _].
      unfold dft_ax. rewrite !upd_same. f_equal; apply dft_ext; intros j _; rewrite upd_upd; [reflexivity|].
      f_equal. f_equal. unfold cdiff. extensionality b. unfold upd. destruct (Nat.eqb_spec b l); reflexivity.
    + intros b Hb. rewrite upd_other by (intros ->; contradiction). apply Hi. apply in_or_app. left. exact Hb.
Qed.
Lemma rsum_base s axs f : forall i i' : index, (forall ax, ~ In ax axs -> i' ax = i ax) -> rsum s axs f i' = rsum s axs f i.
Proof.
  induction axs as [|a r IH]; intros i i' H; simpl.
  - f_equal. extensionality ax. apply H. intros [].
  - apply sumn_ext. intros j _. apply IH. intros ax Hax. unfold upd. destruct (Nat.eqb_spec ax a) as [->|N]; [reflexivity|].
    apply H. intros [->|I]; [congruence|contradiction].
Qed.
