(** C61: low-pass / high-pass splitting and local contrast normalisation. *)
Require Import List Arith ZArith Reals Lra Lia Bool FunctionalExtensionality.
Require Import Verif.RVec Verif.Cplx Verif.FftModel Verif.FftProofs Verif.FftProps Verif.FiltModel Verif.FiltProofs.
Import ListNotations.
Local Open Scope R_scope.

Definition inr (sh : nat -> nat) (idx : index) : Prop := forall ax, (idx ax < sh ax)%nat.

(** ** tikhonov_filter *)
(** The components sum to the signal (real and complex signals). *)
Theorem C61_sum sh npd lmbda x idx : fst (tikhonov sh npd lmbda x) idx + snd (tikhonov sh npd lmbda x) idx = x idx.
Proof. simpl. ring. Qed.
Theorem C61_sum_cplx sh npd lmbda x idx : cadd (fst (tikhonov_c sh npd lmbda x) idx) (snd (tikhonov_c sh npd lmbda x) idx) = x idx.
Proof. simpl. ring. Qed.

(** What the low-pass component is: [energy] is half the squared distance to the padded signal plus lmbda/2 times the squared norms of the
    periodic first differences along the rows and columns (arrays with d axes). *)
Definition back (s : nat -> nat) (ax : nat) (i : index) : index := fun b => if (b =? ax)%nat then ((i b + s b - 1) mod s b)%nat else i b.
Definition energy (s : nat -> nat) (d : nat) (lmbda : R) (sp z : index -> R) : R :=
  / 2 * rsum s (seq 0 d) (fun i => (z i - sp i) ^ 2) idx0 +
  lmbda / 2 * (rsum s (seq 0 d) (fun i => (z (back s 0 i) - z i) ^ 2) idx0 + rsum s (seq 0 d) (fun i => (z (back s 1 i) - z i) ^ 2) idx0).
Definition dist2 (s : nat -> nat) (d : nat) (x z : index -> R) : R := rsum s (seq 0 d) (fun i => (z i - x i) ^ 2) idx0.
Lemma back_prv s ax i : back s ax i = at_prv s ax i.
Proof. extensionality b. unfold back, at_prv, upd, prv. destruct (Nat.eqb_spec b ax) as [->|]; reflexivity. Qed.
Lemma energy_obj s d lmbda sp z : energy s d lmbda sp z = obj s d lmbda sp z.
Proof. unfold energy, obj. f_equal; f_equal; f_equal; apply rsum_ext; intros i; rewrite back_prv; reflexivity. Qed.
Lemma rsum_nn s L f : (forall i, 0 <= f i) -> forall idx, 0 <= rsum s L f idx.
Proof. intros H. induction L as [|a L IH]; intros idx; simpl; [apply H|]. apply sumn_nonneg. intros. apply IH. Qed.
Lemma energy_min s d lmbda sp x z : (2 <= s 0)%nat -> (2 <= s 1)%nat -> (2 <= d)%nat -> 0 <= lmbda -> (forall i, rng s i -> Tr s lmbda x i = sp i) -> energy s d lmbda sp x + / 2 * dist2 s d x z <= energy s d lmbda sp z.
Proof.
  intros H0 H1 Hd Hl N. rewrite !energy_obj. pose proof (obj_gap s H0 H1 d Hd lmbda sp x z N) as G. unfold dist2.
  set (P0 := rsum s (seq 0 d) (fun i => ((z (at_prv s 0 i) - x (at_prv s 0 i)) - (z i - x i)) ^ 2) idx0) in *.
  set (P1 := rsum s (seq 0 d) (fun i => ((z (at_prv s 1 i) - x (at_prv s 1 i)) - (z i - x i)) ^ 2) idx0) in *.
  assert (0 <= P0) by (apply rsum_nn; intros; apply pow2_ge_0). assert (0 <= P1) by (apply rsum_nn; intros; apply pow2_ge_0). nra.
Qed.
(** The filtered padded signal is the unique minimiser of the energy. *)
Theorem C61_lowpass_minimises s d lmbda sp z : (2 <= s 0)%nat -> (2 <= s 1)%nat -> (2 <= d)%nat -> 0 <= lmbda ->
  energy s d lmbda sp (tik_real s lmbda sp) + / 2 * dist2 s d (tik_real s lmbda sp) z <= energy s d lmbda sp z.
Proof. intros H0 H1 Hd Hl. apply energy_min; try assumption. intros i Ri. apply tik_real_normal; assumption. Qed.
Theorem C61_lowpass_minimises_cplx s d lmbda sp z : (2 <= s 0)%nat -> (2 <= s 1)%nat -> (2 <= d)%nat -> 0 <= lmbda ->
  let x := tik_cplx s lmbda sp in let E w := energy s d lmbda (fun i => re (sp i)) (fun i => re (w i)) + energy s d lmbda (fun i => im (sp i)) (fun i => im (w i)) in
  E x + / 2 * (dist2 s d (fun i => re (x i)) (fun i => re (z i)) + dist2 s d (fun i => im (x i)) (fun i => im (z i))) <= E z.
Proof.
  intros H0 H1 Hd Hl x E. unfold E.
  assert (N : forall i, rng s i -> Tc s lmbda x i = sp i) by (intros i Ri; apply tik_cplx_normal; assumption).
  pose proof (energy_min s d lmbda (fun i => re (sp i)) (fun i => re (x i)) (fun i => re (z i)) H0 H1 Hd Hl ltac:(intros i Ri; cbv beta; rewrite <- (N i Ri); reflexivity)).
  pose proof (energy_min s d lmbda (fun i => im (sp i)) (fun i => im (x i)) (fun i => im (z i)) H0 H1 Hd Hl ltac:(intros i Ri; cbv beta; rewrite <- (N i Ri); reflexivity)). lra.
Qed.
(** Low-pass filtering keeps the mean of the padded signal, so the high-pass component of the padded signal has mean zero. *)
Theorem C61_mean_kept s d lmbda sp : (2 <= s 0)%nat -> (2 <= s 1)%nat -> (2 <= d)%nat -> 0 <= lmbda ->
  rsum s (seq 0 d) (tik_real s lmbda sp) idx0 = rsum s (seq 0 d) sp idx0.
Proof.
  intros H0 H1 Hd Hl. set (x := tik_real s lmbda sp).
  assert (E : rsum s (seq 0 d) (Tr s lmbda x) idx0 = rsum s (seq 0 d) sp idx0).
  { apply rsum_ext_in. intros i Hi _. apply tik_real_normal; [assumption|assumption|assumption|]. split; apply Hi, in_seq; lia. }
  rewrite <- E.
  rewrite (rsum_ext s (seq 0 d) (Tr s lmbda x) (fun i => x i + (lmbda * (2 * x i + 2 * x i) + (- lmbda) * ((x (at_nxt s 0 i) + x (at_prv s 0 i)) + (x (at_nxt s 1 i) + x (at_prv s 1 i)))))) by (intros; unfold Tr; ring).
  rewrite rsum_plus, rsum_plus, !rsum_scal, !rsum_plus, !rsum_scal. pose proof (seq_NoDup d 0) as ND.
  rewrite (rsum_nxt s 0 (seq 0 d) x), (rsum_prv s 0 (seq 0 d) x), (rsum_nxt s 1 (seq 0 d) x), (rsum_prv s 1 (seq 0 d) x) by (try exact ND; apply in_seq; lia). change (fun i => x i) with x. ring.
Qed.
(** Padding and cropping: every padded sample is a sample of the signal, and the crop of the padded signal is the signal. *)
Lemma sym_lt n npd p : (0 < n)%nat -> (sym n npd p < n)%nat.
Proof.
  intros H. unfold sym. pose proof (Z.mod_pos_bound (Z.of_nat p - Z.of_nat npd) (2 * Z.of_nat n) ltac:(lia)). set (t := ((Z.of_nat p - Z.of_nat npd) mod (2 * Z.of_nat n))%Z) in *.
  destruct (Nat.ltb_spec (Z.to_nat t) n); lia.
Qed.
Lemma sym_mid n npd i : (i < n)%nat -> sym n npd (i + npd) = i.
Proof.
  intros H. unfold sym. replace (Z.of_nat (i + npd) - Z.of_nat npd)%Z with (Z.of_nat i) by lia. rewrite Z.mod_small by lia. rewrite Nat2Z.id. apply Nat.ltb_lt in H. rewrite H. reflexivity.
Qed.
(** Reflection at both ends: the samples just outside mirror those just inside. *)
Theorem C61_pad_reflects n npd k : (k < n)%nat -> (k < npd)%nat -> sym n npd (npd - 1 - k) = k /\ sym n npd (npd + n + k) = (n - 1 - k)%nat.
Proof.
  intros H1 H2. unfold sym. split.
  - replace (Z.of_nat (npd - 1 - k) - Z.of_nat npd)%Z with (- 1 - Z.of_nat k + 2 * Z.of_nat n + (-1) * (2 * Z.of_nat n))%Z by lia. rewrite Z.mod_add by lia. rewrite Z.mod_small by lia.
    destruct (Nat.ltb_spec (Z.to_nat (-1 - Z.of_nat k + 2 * Z.of_nat n)) n); lia.
  - replace (Z.of_nat (npd + n + k) - Z.of_nat npd)%Z with (Z.of_nat (n + k)) by lia. rewrite Z.mod_small by lia. rewrite Nat2Z.id. destruct (Nat.ltb_spec (n + k) n); lia.
Qed.
Theorem C61_pad_crop (sh : nat -> nat) npd (x : index -> R) idx : inr sh idx -> crop npd (pad_sym sh npd x) idx = x idx.
Proof.
  intros H. unfold crop, pad_sym. f_equal. extensionality ax. unfold on2. destruct (ax <? 2)%nat; [apply sym_mid, H|reflexivity].
Qed.

Definition ix2 (a b : nat) : index := fun ax => match ax with O => a | S O => b | _ => O end.
(** Integer signals: both components are truncated and their sum is not the signal. *)
Theorem C61_integer_refuted : exists sh npd lmbda (x : index -> Z) idx, 0 < lmbda /\ inr sh idx /\
  (fst (tikhonov_int sh npd lmbda x) idx + snd (tikhonov_int sh npd lmbda x) idx <> x idx)%Z.
Proof.
  set (sh := fun ax : nat => if (ax <? 2)%nat then 2%nat else 1%nat). set (x := fun i : index => Z.of_nat (i 0%nat)).
  exists sh, O, (/ 2), x, (ix2 1 0). split; [lra|]. split; [intros [|[|ax]]; unfold sh, ix2; simpl; lia|].
  set (y := tik_real (padded sh 0) (/ 2) (pad_sym sh 0 (fun i => IZR (x i)))).
  assert (P0 : padded sh 0 0%nat = 2%nat) by reflexivity. assert (P1 : padded sh 0 1%nat = 2%nat) by reflexivity.
  assert (N : forall a b, (a < 2)%nat -> (b < 2)%nat -> Tr (padded sh 0) (/ 2) y (ix2 a b) = INR a).
  { intros a b Ha Hb. unfold y. rewrite tik_real_normal; [|rewrite P0; lia|rewrite P1; lia|lra|split; [rewrite P0; exact Ha|rewrite P1; exact Hb]].
    unfold pad_sym, x. rewrite INR_IZR_INZ. f_equal. f_equal. unfold on2. destruct a as [|[|a]]; [reflexivity|reflexivity|lia]. }
  assert (U : forall ax j a b, upd (ix2 a b) ax j = match ax with O => ix2 j b | S O => ix2 a j | _ => upd (ix2 a b) ax j end).
  { intros [|[|ax]] j a b; try reflexivity; extensionality k; unfold upd, ix2; destruct k as [|[|k]]; reflexivity. }
  pose proof (N 0%nat 0%nat ltac:(lia) ltac:(lia)) as E00. pose proof (N 0%nat 1%nat ltac:(lia) ltac:(lia)) as E01. pose proof (N 1%nat 0%nat ltac:(lia) ltac:(lia)) as E10. pose proof (N 1%nat 1%nat ltac:(lia) ltac:(lia)) as E11.
  unfold Tr, at_nxt, at_prv in E00, E01, E10, E11. rewrite !U in E00, E01, E10, E11. rewrite P0, P1 in E00, E01, E10, E11.
  change (ix2 0 0 0%nat) with O in *. change (ix2 0 0 1%nat) with O in *. change (ix2 0 1 0%nat) with O in *. change (ix2 0 1 1%nat) with 1%nat in *.
  change (ix2 1 0 0%nat) with 1%nat in *. change (ix2 1 0 1%nat) with O in *. change (ix2 1 1 0%nat) with 1%nat in *. change (ix2 1 1 1%nat) with 1%nat in *.
  change (nxt 2 0) with 1%nat in *. change (nxt 2 1) with O in *. change (prv 2 0) with 1%nat in *. change (prv 2 1) with O in *. simpl INR in *.
  assert (V : y (ix2 1 0) = 2 / 3) by lra.
  unfold tikhonov_int, tikhonov. cbn [fst snd]. unfold crop. fold y. replace (on2 (fun _ p => (p + 0)%nat) (ix2 1 0)) with (ix2 1 0) by (extensionality k; unfold on2, ix2; destruct k as [|[|k]]; reflexivity).
  rewrite V. change (x (ix2 1 0)) with 1%Z. unfold astype_int.
  assert (I : forall r, 0 <= r < 1 -> Int_part r = 0%Z).
  { intros r Hr. destruct (base_Int_part r) as [B1 B2]. assert (B3 : IZR (Int_part r) < 1) by lra. assert (B4 : IZR (-1) < IZR (Int_part r)) by lra. apply lt_IZR in B3, B4. lia. }
  destruct (Rle_dec 0 (2 / 3)); [|lra]. destruct (Rle_dec 0 (1 - 2 / 3)); [|lra]. rewrite !I by lra. lia.
Qed.
(** For integer signals both components are rounded towards zero: each is off by less than one, never larger in size than the exact one, and their
    sum is off by at most one. *)
Lemma astype_int_spec r : Rabs (IZR (astype_int r)) <= Rabs r /\ Rabs (IZR (astype_int r) - r) < 1.
Proof.
  unfold astype_int. destruct (Rle_dec 0 r) as [P|P].
  - destruct (base_Int_part r) as [A B]. assert (0 <= IZR (Int_part r)).
    { apply IZR_le. assert (-1 < Int_part r)%Z; [|lia]. apply lt_IZR. lra. }
    rewrite !Rabs_right by lra. split; [exact A|]. apply Rabs_def1; lra.
  - destruct (base_Int_part (- r)) as [A B]. assert (0 <= IZR (Int_part (- r))).
    { apply IZR_le. assert (-1 < Int_part (- r))%Z; [|lia]. apply lt_IZR. lra. }
    rewrite opp_IZR, Rabs_Ropp, (Rabs_right (IZR _)), (Rabs_left r) by lra. split; [exact A|]. apply Rabs_def1; lra.
Qed.
Theorem C61_integer sh npd lmbda (x : index -> Z) idx :
  let lo := fst (tikhonov_int sh npd lmbda x) idx in let hi := snd (tikhonov_int sh npd lmbda x) idx in
  let exact := tikhonov sh npd lmbda (fun i => IZR (x i)) in
  Rabs (IZR lo) <= Rabs (fst exact idx) /\ Rabs (IZR lo - fst exact idx) < 1 /\
  Rabs (IZR hi) <= Rabs (snd exact idx) /\ Rabs (IZR hi - snd exact idx) < 1 /\ (-1 <= lo + hi - x idx <= 1)%Z.
Proof.
  cbv zeta. pose proof (C61_sum sh npd lmbda (fun i => IZR (x i)) idx) as Sm. unfold tikhonov_int.
  destruct (tikhonov sh npd lmbda (fun i => IZR (x i))) as [slp shp]. cbn [fst snd] in *.
  destruct (astype_int_spec (slp idx)) as [A1 A2]. destruct (astype_int_spec (shp idx)) as [B1 B2]. repeat split; try assumption.
  - apply Rabs_def2 in A2, B2. assert (-2 < astype_int (slp idx) + astype_int (shp idx) - x idx)%Z; [|lia].
    apply lt_IZR. rewrite minus_IZR, plus_IZR. lra.
  - apply Rabs_def2 in A2, B2. assert (astype_int (slp idx) + astype_int (shp idx) - x idx < 2)%Z; [|lia].
    apply lt_IZR. rewrite minus_IZR, plus_IZR. lra.
Qed.
(** Without padding and with a single row and column, the difference filters are cut to one tap by the transform and even a constant is damped. *)
Theorem C61_one_pixel_refuted lmbda sp : 0 < lmbda -> tik_real (fun _ => 1%nat) lmbda sp idx0 = sp idx0 / (1 + 2 * lmbda).
Proof.
  intros Hl. set (s := fun _ : nat => 1%nat).
  assert (D : forall (h : nat -> C) k, dft 1 h k = h O).
  { intros h k. unfold dft. rewrite csumn_S, csumn_O. change (- (Z.of_nat 0 * Z.of_nat k))%Z with 0%Z. rewrite ru_0. ring. }
  assert (U : forall i : index, i 0%nat = O -> i 1%nat = O -> upd (upd i 0 0) 1 0 = i).
  { intros i E0 E1. extensionality b. unfold upd. destruct b as [|[|b]]; simpl; congruence. }
  assert (FV : forall y i, i 0%nat = O -> i 1%nat = O -> fftn s [0; 1]%nat y i = y i).
  { intros y i E0 E1. change (dft 1 (fun j => dft 1 (fun l => y (upd (upd i 0 j) 1 l)) (i 1%nat)) (i 0%nat) = y i). rewrite D. rewrite D. rewrite U by assumption. reflexivity. }
  assert (G : forall ax i, (ax < 2)%nat -> i 0%nat = O -> i 1%nat = O -> cabs2 (Gf s ax i) = 1).
  { intros ax i Ha E0 E1. unfold Gf. rewrite FV by assumption. destruct ax as [|[|ax]]; [| |lia]; unfold padR, inside, dfilt, dfilt_shape; simpl; rewrite E0, E1; simpl; unfold cabs2, ofR, re, im; simpl; ring. }
  unfold tik_real, irfftn. cbn [last removelast]. change (irfft 1 (fun k => idft 1 (fun j => cscal (/ Aden s lmbda (upd (upd idx0 1 k) 0 j)) (rfftn s [0; 1]%nat sp (upd (upd idx0 1 k) 0 j))) (upd idx0 1 k 0%nat)) (idx0 1%nat) = sp idx0 / (1 + 2 * lmbda)).
  unfold irfft. change (Nat.even 1) with false. cbv iota. change ((1 + 1) / 2 - 1)%nat with O. simpl sumn.
  unfold idft. rewrite csumn_S, csumn_O. replace (upd (upd idx0 1 0) 0 0) with idx0 by (extensionality b; unfold upd, idx0; destruct b as [|[|b]]; reflexivity).
  change (rfftn s [0; 1]%nat sp) with (fftn s [0; 1]%nat (fun i => ofR (sp i))). rewrite FV by reflexivity. unfold Aden. rewrite !G by (try lia; reflexivity).
  change (Z.of_nat (upd idx0 1 0 0%nat) * Z.of_nat 0)%Z with 0%Z. rewrite ru_0. unfold cscal, cadd, cmul, c0, c1, ofR, re, im. simpl. field. lra.
Qed.

(** ** The Gaussian kernel *)
Lemma gfn_pos sd x : 0 < sd -> 0 < gfn sd x.
Proof.
  intros H. unfold gfn, Rdiv. apply Rmult_lt_0_compat; [apply exp_pos|]. apply Rinv_0_lt_compat, Rmult_lt_0_compat; [|exact H]. apply sqrt_lt_R0. pose proof PI_RGT_0. lra.
Qed.
Lemma gsum_pos n0 n1 sd : (0 < n0)%nat -> (0 < n1)%nat -> 0 < sd -> 0 < sumn n0 (fun a => sumn n1 (fun b => gauss_raw n0 n1 sd a b)).
Proof.
  intros H0 H1 Hs. assert (P : forall a b, 0 < gauss_raw n0 n1 sd a b) by (intros; apply Rmult_lt_0_compat; apply gfn_pos, Hs).
  apply Rlt_le_trans with (gauss_raw n0 n1 sd 0 0); [apply P|].
  apply Rle_trans with (sumn n1 (fun b => gauss_raw n0 n1 sd 0 b)).
  - apply (sumn_ge_term n1 (fun b => gauss_raw n0 n1 sd 0 b) 0); [intros; left; apply P|exact H1].
  - apply (sumn_ge_term n0 (fun a => sumn n1 (fun b => gauss_raw n0 n1 sd a b)) 0); [intros; apply sumn_nonneg; intros; left; apply P|exact H0].
Qed.
Theorem C61_gaussian n0 n1 sd : (0 < n0)%nat -> (0 < n1)%nat -> 0 < sd ->
  (forall i j, 0 < gaussian n0 n1 sd i j) /\ sumn n0 (fun a => sumn n1 (fun b => gaussian n0 n1 sd a b)) = 1 /\
  (forall i j, (2 <= n0)%nat -> (i < n0)%nat -> gaussian n0 n1 sd (n0 - 1 - i) j = gaussian n0 n1 sd i j) /\
  (forall i j, (2 <= n1)%nat -> (j < n1)%nat -> gaussian n0 n1 sd i (n1 - 1 - j) = gaussian n0 n1 sd i j).
Proof.
  intros H0 H1 Hs. pose proof (gsum_pos n0 n1 sd H0 H1 Hs) as P. unfold gaussian. set (T := sumn n0 (fun a => sumn n1 (fun b => gauss_raw n0 n1 sd a b))) in *.
  assert (L : forall n i, (2 <= n)%nat -> (i < n)%nat -> gfn sd (lin3 n (n - 1 - i)) = gfn sd (lin3 n i)).
  { intros n i Hn Hi. unfold lin3. destruct (Nat.eqb_spec n 1); [lia|]. unfold gfn. f_equal. f_equal. f_equal. f_equal. unfold linspace3. rewrite (minus_INR (n - 1) i) by lia.
    assert (INR (n - 1) <> 0) by (apply not_0_INR; lia). field. assumption. }
  split; [|split; [|split]].
  - intros i j. unfold Rdiv. apply Rmult_lt_0_compat; [apply Rmult_lt_0_compat; apply gfn_pos, Hs|apply Rinv_0_lt_compat, P].
  - unfold Rdiv. rewrite (sumn_ext n0 _ (fun a => sumn n1 (fun b => gauss_raw n0 n1 sd a b) * / T)) by (intros; apply sumn_scal_r). rewrite sumn_scal_r. fold T. field. lra.
  - intros i j Hn Hi. unfold gauss_raw. rewrite L by assumption. reflexivity.
  - intros i j Hn Hj. unfold gauss_raw. rewrite L by assumption. reflexivity.
Qed.

(** ** Local contrast normalisation *)
Lemma sumn_tail N k f : (forall i, (N <= i)%nat -> f i = 0) -> sumn (N + k) f = sumn N f.
Proof. intros H. rewrite sumn_split. rewrite (sumn_0 k) by (intros; apply H; lia). ring. Qed.
Definition at2 (idx : index) (a b : nat) : index := upd (upd idx 0 a) 1 b.
(** The convolution sums over the kernel, with wrap-around at the ends of the padded image. *)
Lemma gconv_sum sh n x idx : (0 < sh 0%nat)%nat -> (0 < sh 1%nat)%nat -> (forall ax, (idx ax < padded sh n ax)%nat) ->
  gconv sh n x idx = sumn (2 * n + 1) (fun a => sumn (2 * n + 1) (fun b => gaussian (2 * n + 1) (2 * n + 1) 1 a b *
    x (at2 idx (Z.to_nat ((Z.of_nat (idx 0%nat) + Z.of_nat n - Z.of_nat a) mod Z.of_nat (sh 0%nat + 2 * n))) (Z.to_nat ((Z.of_nat (idx 1%nat) + Z.of_nat n - Z.of_nat b) mod Z.of_nat (sh 1%nat + 2 * n)))))).
Proof.
  intros H0 H1 Hi. unfold gconv. rewrite C29_circular_real.
  - set (s := dims (gshape n) (padded sh n)). assert (E0 : s 0%nat = (sh 0%nat + 2 * n)%nat) by (unfold s, dims, gshape, padded; simpl; lia). assert (E1 : s 1%nat = (sh 1%nat + 2 * n)%nat) by (unfold s, dims, gshape, padded; simpl; lia).
    cbn [rsum]. rewrite E0, E1.
    set (G := fun a b => if ((a <? 2 * n + 1) && (b <? 2 * n + 1))%nat then gaussian (2 * n + 1) (2 * n + 1) 1 a b else 0).
    transitivity (sumn (sh 0%nat + 2 * n) (fun a => sumn (sh 1%nat + 2 * n) (fun b => G a b *
      x (at2 idx (Z.to_nat ((Z.of_nat (idx 0%nat) + Z.of_nat n - Z.of_nat a) mod Z.of_nat (sh 0%nat + 2 * n))) (Z.to_nat ((Z.of_nat (idx 1%nat) + Z.of_nat n - Z.of_nat b) mod Z.of_nat (sh 1%nat + 2 * n))))))).
    + apply sumn_ext. intros a Ha. apply sumn_ext. intros b Hb. f_equal.
      * unfold padR, inside, gker, G, bc, gshape, upd. simpl. rewrite andb_true_r. reflexivity.
      * set (q := bc (padded sh n) [0%nat; 1%nat] _).
        assert (Q : q = at2 idx (Z.to_nat ((Z.of_nat (idx 0%nat) + Z.of_nat n - Z.of_nat a) mod Z.of_nat (sh 0%nat + 2 * n))) (Z.to_nat ((Z.of_nat (idx 1%nat) + Z.of_nat n - Z.of_nat b) mod Z.of_nat (sh 1%nat + 2 * n)))).
        { extensionality ax. unfold q, bc, partner, org_of, offset, at2, upd. destruct ax as [|[|ax]]; simpl mem; simpl negb; cbv iota.
          - simpl. rewrite E0. reflexivity.
          - simpl. rewrite E1. reflexivity.
          - simpl. specialize (Hi (S (S ax))). unfold padded in *. simpl in *. destruct (Nat.eqb_spec (sh (S (S ax))) 1); [lia|reflexivity]. }
        rewrite Q. unfold padR. replace (inside (padded sh n) [0%nat; 1%nat] _) with true; [reflexivity|]. symmetry. unfold inside, at2, upd, padded. simpl.
        assert (B0 := Z.mod_pos_bound (Z.of_nat (idx 0%nat) + Z.of_nat n - Z.of_nat a) (Z.of_nat (sh 0%nat + 2 * n)) ltac:(lia)). assert (B1 := Z.mod_pos_bound (Z.of_nat (idx 1%nat) + Z.of_nat n - Z.of_nat b) (Z.of_nat (sh 1%nat + 2 * n)) ltac:(lia)).
        rewrite !andb_true_iff. repeat split; apply Nat.ltb_lt; simpl in *; lia.
    + replace (sh 0%nat + 2 * n)%nat with (2 * n + 1 + (sh 0%nat - 1))%nat at 1 by lia. rewrite sumn_tail.
      * apply sumn_ext. intros a Ha. replace (sh 1%nat + 2 * n)%nat with (2 * n + 1 + (sh 1%nat - 1))%nat at 1 by lia. rewrite sumn_tail.
        -- apply sumn_ext. intros b Hb. f_equal. unfold G. apply Nat.ltb_lt in Ha, Hb. rewrite Ha, Hb. reflexivity.
        -- intros b Hb. unfold G. destruct (Nat.ltb_spec b (2 * n + 1)); [lia|]. rewrite andb_false_r. ring.
      * intros a Ha. apply sumn_0. intros b _. unfold G. destruct (Nat.ltb_spec a (2 * n + 1)); [lia|]. simpl. ring.
  - repeat constructor; simpl; intuition lia.
  - discriminate.
  - intros o E. injection E as <-. reflexivity.
  - intros ax [<-|[<-|[]]]; unfold dims; pose proof (Hi 0%nat); pose proof (Hi 1%nat); lia.
Qed.
(** On the returned part of the image the local mean is the Gaussian average over the centred window of 2n+1 by 2n+1 samples of the padded
    signal, without wrap-around. *)
Theorem C61_lcn_window sh n x idx : inr sh idx -> (1 <= n)%nat -> crop n (lcn_mean sh n x) idx =
  sumn (2 * n + 1) (fun a => sumn (2 * n + 1) (fun b => gaussian (2 * n + 1) (2 * n + 1) 1 a b * pad_sym sh n x (at2 idx (idx 0%nat + 2 * n - a) (idx 1%nat + 2 * n - b)))).
Proof.
  intros H Hn. unfold crop, lcn_mean. rewrite gconv_sum; [|pose proof (H 0%nat); lia|pose proof (H 1%nat); lia|].
  - apply sumn_ext. intros a Ha. apply sumn_ext. intros b Hb. f_equal. f_equal. pose proof (H 0%nat). pose proof (H 1%nat). unfold at2. extensionality ax. unfold upd, on2. destruct ax as [|[|ax]]; simpl.
    + rewrite Z.mod_small by lia. lia.
    + rewrite Z.mod_small by lia. lia.
    + reflexivity.
  - intros ax. specialize (H ax). unfold on2, padded. destruct (ax <? 2)%nat; lia.
Qed.
(** The returned mean and scale give back the signal. *)
Lemma lcn_rec sh n c x idx : inr sh idx -> (1 <= n)%nat ->
  match lcn sh n c x idx with (Some s2, smn, snrm) => s2 * snrm + smn = x idx | (None, _, snrm) => snrm = 0 end.
Proof.
  intros H Hn. unfold lcn. set (i := on2 _ idx). destruct (Req_EM_T (lcn_nrm sh n c x i) 0) as [E|E]; [exact E|].
  unfold lcn_s1. replace (pad_sym sh n x i) with (x idx) by (symmetry; apply C61_pad_crop, H). field. exact E.
Qed.
Theorem C61_lcn_inverse sh n c x idx : inr sh idx -> (1 <= n)%nat -> 0 < c -> exists s2 smn snrm, lcn sh n (Some c) x idx = (Some s2, smn, snrm) /\ 0 < snrm /\ s2 * snrm + smn = x idx.
Proof.
  intros H Hn Hc. pose proof (lcn_rec sh n (Some c) x idx H Hn) as Q. unfold lcn in *. set (i := on2 _ idx) in *.
  assert (P : 0 < lcn_nrm sh n (Some c) x i) by (unfold lcn_nrm, lcn_c; pose proof (Rmax_l c (lcn_raw sh n x i)); lra).
  destruct (Req_EM_T (lcn_nrm sh n (Some c) x i) 0) as [E|E]; [lra|]. eexists _, _, _. split; [reflexivity|]. split; [exact P|exact Q].
Qed.
(** With the default constant (the mean local norm): invertible as soon as one sample of the same channel has a non-zero local norm ... *)
Theorem C61_lcn_inverse_default sh n x idx i : inr sh idx -> (1 <= n)%nat -> (i 0 < padded sh n 0)%nat -> (i 1 < padded sh n 1)%nat -> (forall ax, (2 <= ax)%nat -> i ax = idx ax) ->
  lcn_raw sh n x i <> 0 -> exists s2 smn snrm, lcn sh n None x idx = (Some s2, smn, snrm) /\ 0 < snrm /\ s2 * snrm + smn = x idx.
Proof.
  intros H Hn I0 I1 Io Hr. pose proof (lcn_rec sh n None x idx H Hn) as Q. unfold lcn in *. set (p := on2 (fun _ q => (q + n)%nat) idx) in *.
  assert (NN : forall j, 0 <= lcn_raw sh n x j) by (intros; apply sqrt_pos).
  assert (P : 0 < lcn_nrm sh n None x p).
  { unfold lcn_nrm. eapply Rlt_le_trans; [|apply Rmax_l]. unfold lcn_c, Rdiv. apply Rmult_lt_0_compat.
    - cbn [rsum]. apply Rlt_le_trans with (lcn_raw sh n x i); [pose proof (NN i); lra|].
      replace i with (upd (upd p 0 (i 0%nat)) 1 (i 1%nat)) at 1.
      + apply Rle_trans with (sumn (padded sh n 1) (fun b => lcn_raw sh n x (upd (upd p 0 (i 0%nat)) 1 b))).
        * apply (sumn_ge_term _ (fun b => lcn_raw sh n x (upd (upd p 0 (i 0%nat)) 1 b))); [intros; apply NN|exact I1].
        * apply (sumn_ge_term _ (fun a => sumn (padded sh n 1) (fun b => lcn_raw sh n x (upd (upd p 0 a) 1 b)))); [intros; apply sumn_nonneg; intros; apply NN|exact I0].
      + extensionality ax. unfold upd, p, on2. destruct ax as [|[|ax]]; [reflexivity|reflexivity|]. simpl. symmetry. apply Io. lia.
    - apply Rinv_0_lt_compat, Rmult_lt_0_compat; apply lt_0_INR; lia. }
  destruct (Req_EM_T (lcn_nrm sh n None x p) 0) as [E|E]; [lra|]. eexists _, _, _. split; [reflexivity|]. split; [exact P|exact Q].
Qed.
(** ... and undefined (0/0) everywhere on a constant image. *)
Theorem C61_lcn_constant_refuted sh n v idx : inr sh idx -> (1 <= n)%nat -> fst (fst (lcn sh n None (fun _ => v) idx)) = None.
Proof.
  intros H Hn. pose proof (H 0%nat) as H0. pose proof (H 1%nat) as H1.
  assert (GC : forall c (y : index -> R), (forall j, y j = c) -> forall j, (forall ax, (j ax < padded sh n ax)%nat) -> gconv sh n y j = c).
  { intros c y Hy j Hj. rewrite gconv_sum by (try lia; exact Hj). destruct (C61_gaussian (2 * n + 1) (2 * n + 1) 1 ltac:(lia) ltac:(lia) ltac:(lra)) as (_ & G & _).
    rewrite (sumn_ext _ _ (fun a => sumn (2 * n + 1) (fun b => gaussian (2 * n + 1) (2 * n + 1) 1 a b) * c)).
    - rewrite sumn_scal_r, G. ring.
    - intros a _. rewrite <- sumn_scal_r. apply sumn_ext. intros b _. rewrite Hy. reflexivity. }
  assert (S1 : forall j, (forall ax, (j ax < padded sh n ax)%nat) -> lcn_s1 sh n (fun _ => v) j = 0).
  { intros j Hj. unfold lcn_s1, lcn_mean. rewrite (GC v) by (try reflexivity; exact Hj). unfold pad_sym. ring. }
  assert (R0 : forall j, (forall ax, (j ax < padded sh n ax)%nat) -> lcn_raw sh n (fun _ => v) j = 0).
  { intros j Hj. unfold lcn_raw. rewrite gconv_sum by (try lia; exact Hj).
    rewrite (sumn_0 (2 * n + 1)); [rewrite Rmax_left by lra; apply sqrt_0|]. intros a Ha. apply sumn_0. intros b Hb. rewrite S1; [ring|].
    intros ax. unfold at2, upd. destruct ax as [|[|ax]]; simpl.
    - unfold padded. simpl. pose proof (Z.mod_pos_bound (Z.of_nat (j 0%nat) + Z.of_nat n - Z.of_nat a) (Z.of_nat (sh 0%nat + 2 * n)) ltac:(lia)). simpl in *. lia.
    - unfold padded. simpl. pose proof (Z.mod_pos_bound (Z.of_nat (j 1%nat) + Z.of_nat n - Z.of_nat b) (Z.of_nat (sh 1%nat + 2 * n)) ltac:(lia)). simpl in *. lia.
    - apply Hj. }
  assert (IP : forall ax, (on2 (fun _ q => (q + n)%nat) idx ax < padded sh n ax)%nat) by (intros ax; specialize (H ax); unfold on2, padded; destruct (ax <? 2)%nat; lia).
  assert (Z : lcn_nrm sh n None (fun _ => v) (on2 (fun _ q => (q + n)%nat) idx) = 0).
  { set (p := on2 (fun _ q => (q + n)%nat) idx) in *. unfold lcn_nrm. rewrite (R0 p IP). unfold lcn_c. cbn [rsum].
    rewrite (sumn_0 (padded sh n 0)).
    - unfold Rdiv. rewrite Rmult_0_l, Rmax_left by lra. reflexivity.
    - intros a Ha. apply sumn_0. intros b Hb. apply R0. intros ax. unfold upd. destruct ax as [|[|ax]]; simpl; [exact Ha|exact Hb|apply IP]. }
  unfold lcn. cbn [fst]. destruct (Req_EM_T _ 0) as [E|E]; [reflexivity|contradiction].
Qed.
(** With window parameter 0 the slices 0:-0 are empty: nothing is returned. *)
Theorem C61_lcn_n0_refuted sh ax : (ax < 2)%nat -> lcn_shape sh 0 ax = O.
Proof. intros H. unfold lcn_shape. apply Nat.ltb_lt in H. rewrite H. reflexivity. Qed.
Example C61_ex : inr (fun ax => if (ax <? 2)%nat then 4%nat else 1%nat) (ix2 3 2) /\ (2 <= padded (fun ax => if (ax <? 2)%nat then 4%nat else 1%nat) 16 0)%nat /\ (2 <= padded (fun ax => if (ax <? 2)%nat then 4%nat else 1%nat) 16 1)%nat.
Proof. split; [intros [|[|ax]]; simpl; lia|]. unfold padded. simpl. lia. Qed.
Print Assumptions C61_sum. Print Assumptions C61_sum_cplx. Print Assumptions C61_lowpass_minimises. Print Assumptions C61_lowpass_minimises_cplx. Print Assumptions C61_mean_kept.
Print Assumptions C61_pad_reflects. Print Assumptions C61_pad_crop. Print Assumptions C61_integer_refuted. Print Assumptions C61_one_pixel_refuted. Print Assumptions C61_gaussian.
Print Assumptions C61_lcn_window. Print Assumptions C61_lcn_inverse. Print Assumptions C61_lcn_inverse_default. Print Assumptions C61_lcn_constant_refuted. Print Assumptions C61_lcn_n0_refuted.
Print Assumptions C61_integer.
