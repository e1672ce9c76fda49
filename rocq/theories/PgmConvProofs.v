(** Fourier domain formulas of PgmConvModel against the signal domain formulas of PgmConvSpec. *)
Require Import List Arith ZArith Reals Lra Lia Bool FunctionalExtensionality.
Require Import Verif.RVec Verif.Cplx Verif.FftModel Verif.FftProofs Verif.PgmModel Verif.PgmConvModel Verif.PgmConvSpec Verif.StepsSpec Verif.StepsProofs.
Import ListNotations.
Local Open Scope R_scope.

Lemma mod_small_sub N a : (a < N)%nat -> (a mod N = a)%nat. Proof. apply Nat.mod_small. Qed.
Lemma mod_wrap N a : (N <= a < N + N)%nat -> (a mod N = a - N)%nat.
Proof. intros H. symmetry. apply (Nat.mod_unique a N 1 (a - N)); lia. Qed.
Lemma sumn_shift N (f : nat -> R) i : (i < N)%nat -> sumn N (fun j => f ((j + N - i) mod N)%nat) = sumn N f.
Proof.
  intros Hi. replace N with (i + (N - i))%nat at 1 by lia. rewrite sumn_split.
  transitivity (sumn ((N - i) + i) f); [|f_equal; lia]. rewrite (sumn_split (N - i) i). rewrite Rplus_comm. f_equal; apply sumn_ext; intros j Hj; f_equal.
  - rewrite mod_wrap by lia. lia.
  - rewrite mod_small_sub by lia. lia.
Qed.
Lemma sumn_reflect N (f : nat -> R) j : (j < N)%nat -> sumn N (fun i => f ((j + N - i) mod N)%nat) = sumn N f.
Proof.
  intros Hj. replace N with (S j + (N - S j))%nat at 1 by lia. rewrite sumn_split.
  transitivity (sumn (S j + (N - S j)) f); [|f_equal; lia]. rewrite (sumn_split (S j) (N - S j) f). f_equal.
  - rewrite (sumn_rev (S j) f). apply sumn_ext. intros i Hi. f_equal. rewrite mod_wrap by lia. lia.
  - rewrite (sumn_rev (N - S j) (fun i => f (S j + i)%nat)). apply sumn_ext. intros i Hi. f_equal. rewrite mod_small_sub by lia. lia.
Qed.
Lemma csumn_shift N f i : (i < N)%nat -> csumn N (fun j => f ((j + N - i) mod N)%nat) = csumn N f.
Proof. intros Hi. unfold csumn. f_equal; [apply (sumn_shift N (fun j => re (f j)) i Hi)|apply (sumn_shift N (fun j => im (f j)) i Hi)]. Qed.
Lemma csumn_reflect N f i : (i < N)%nat -> csumn N (fun j => f ((i + N - j) mod N)%nat) = csumn N f.
Proof. intros Hi. unfold csumn. f_equal; [apply (sumn_reflect N (fun j => re (f j)) i Hi)|apply (sumn_reflect N (fun j => im (f j)) i Hi)]. Qed.

Lemma ru_shift N (i j k : nat) : (j < N)%nat -> (i < N)%nat ->
  ru N (- (Z.of_nat j * Z.of_nat k)) = cmul (ru N (- (Z.of_nat i * Z.of_nat k))) (ru N (- (Z.of_nat ((j + N - i) mod N) * Z.of_nat k))).
Proof.
  intros Hj Hi. rewrite <- ru_add. apply ru_mod; [lia|]. rewrite csub_mod by assumption.
  rewrite (Z.mod_eq (Z.of_nat j - Z.of_nat i)) by lia. set (q := ((Z.of_nat j - Z.of_nat i) / Z.of_nat N)%Z).
  replace (- (Z.of_nat i * Z.of_nat k) + - ((Z.of_nat j - Z.of_nat i - Z.of_nat N * q) * Z.of_nat k))%Z with (- (Z.of_nat j * Z.of_nat k) + (q * Z.of_nat k) * Z.of_nat N)%Z by ring.
  symmetry. apply Z.mod_add. lia.
Qed.
(** Transform of a shifted and of a reflected and shifted sequence. *)
Lemma dft_shift N (v : nat -> C) i k : (i < N)%nat -> csumn N (fun j => cmul (v ((j + N - i) mod N)%nat) (ru N (- (Z.of_nat j * Z.of_nat k)))) = cmul (ru N (- (Z.of_nat i * Z.of_nat k))) (dft N v k).
Proof.
  intros Hi. rewrite (csumn_ext N _ (fun j => cmul (ru N (- (Z.of_nat i * Z.of_nat k))) ((fun l => cmul (v l) (ru N (- (Z.of_nat l * Z.of_nat k)))) ((j + N - i) mod N)%nat))).
  - rewrite csumn_scal. f_equal. rewrite (csumn_shift N (fun l => cmul (v l) (ru N (- (Z.of_nat l * Z.of_nat k)))) i Hi). reflexivity.
  - intros j Hj. rewrite (ru_shift N i j k Hj Hi). ring.
Qed.
Lemma dft_reflect N (v : nat -> R) j k : (j < N)%nat ->
  csumn N (fun i => cmul (ofR (v ((j + N - i) mod N)%nat)) (ru N (- (Z.of_nat i * Z.of_nat k)))) = cmul (ru N (- (Z.of_nat j * Z.of_nat k))) (conj (dft N (fun l => ofR (v l)) k)).
Proof.
  intros Hj. rewrite (csumn_ext N _ (fun i => (fun l => cmul (ru N (- (Z.of_nat j * Z.of_nat k))) (conj (cmul (ofR (v l)) (ru N (- (Z.of_nat l * Z.of_nat k)))))) ((j + N - i) mod N)%nat)).
  - rewrite (csumn_reflect N (fun l => cmul (ru N (- (Z.of_nat j * Z.of_nat k))) (conj (cmul (ofR (v l)) (ru N (- (Z.of_nat l * Z.of_nat k)))))) j Hj).
    rewrite csumn_scal. f_equal. unfold dft. rewrite csumn_conj. reflexivity.
  - intros i Hi. cbv beta. rewrite conj_mul, conj_ofR, ru_conj, (ru_shift N i j k Hj Hi).
    set (a := ru N (- (Z.of_nat i * Z.of_nat k))). set (l := ((j + N - i) mod N)%nat).
    transitivity (cmul (cmul (ofR (v l)) a) c1); [ring|]. rewrite <- (ru_inv N (- (Z.of_nat l * Z.of_nat k))). ring.
Qed.

Section cb.
Variables (N M : nat) (D : nat -> nat -> R) (s : vec).
Hypothesis HN : (0 < N)%nat.
Notation fwd := (cb_fwd N M).
Notation fw := (fun x m k => dft N (fun j => ofR (x (m * N + j)%nat)) k).
Lemma cut_in h m k : (m < M)%nat -> cut M h m k = h m k.
Proof. intros H. unfold cut. rewrite (proj2 (Nat.ltb_lt m M) H). reflexivity. Qed.
Lemma cut_ext h g : (forall m k, (m < M)%nat -> h m k = g m k) -> cut M h = cut M g.
Proof. intros H. extensionality m; extensionality k. unfold cut. destruct (Nat.ltb_spec m M); [apply H; assumption|reflexivity]. Qed.
Notation inv := (cb_inv N).
Notation n := (M * N)%nat.

Lemma cconv_same x j : (j < N)%nat -> cconv N M D x j = cconv' N M D x j.
Proof.
  intros Hj. unfold cconv, cconv'. apply sumn_ext. intros m Hm.
  rewrite <- (irfft_prod N (fun i => x (m * N + i)%nat) (D m) j Hj), <- (irfft_prod N (D m) (fun i => x (m * N + i)%nat) j Hj).
  apply irfft_ext; [exact HN|]. intros k _. ring.
Qed.
Lemma cconv_linear : linear_map (cconv N M D).
Proof.
  intros a x b y j. unfold cconv. rewrite <- !sumn_scal, <- sumn_plus. apply sumn_ext. intros m _. rewrite <- !sumn_scal, <- sumn_plus. apply sumn_ext. intros i _. ring.
Qed.
Lemma cconv_adjoint : adjoint_of n N (cconv N M D) (ccorr N D).
Proof.
  intros x r. rewrite (dot_rows M N x _ HN). unfold dot, cconv, ccorr, row.
  rewrite (sumn_ext N _ (fun j => sumn M (fun m => sumn N (fun i => x (m * N + i)%nat * D m ((j + N - i) mod N)%nat * r j)))).
  2:{ intros j _. rewrite <- sumn_scal_r. apply sumn_ext. intros m _. rewrite <- sumn_scal_r. reflexivity. }
  rewrite sumn_swap. apply sumn_ext. intros m _. rewrite sumn_swap. apply sumn_ext. intros i Hi. rewrite <- sumn_scal. apply sumn_ext. intros j _.
  rewrite div_at, mod_at by exact Hi. ring.
Qed.
(** The residual spectrum is the transform of the residual. *)
Lemma Rf_eq x k : cb_Rf N M D s (fwd x) k = dft N (fun j => ofR (cconv N M D x j - s j)) k.
Proof.
  unfold cb_Rf, cb_Sf.
  assert (A : csumn M (fun m => cmul (cb_Df N D m k) (fwd x m k)) = dft N (fun j => ofR (cconv N M D x j)) k).
  { unfold cconv. unfold dft at 1.
    rewrite (csumn_ext N _ (fun j => csumn M (fun m => csumn N (fun i => cmul (ofR (x (m * N + i)%nat)) (cmul (ofR (D m ((j + N - i) mod N)%nat)) (ru N (- (Z.of_nat j * Z.of_nat k)))))))).
    2:{ intros j _. rewrite <- csumn_ofR, <- csumn_scal_r. apply csumn_ext. intros m _. rewrite <- csumn_ofR, <- csumn_scal_r. apply csumn_ext. intros i _.
        replace (ofR (x (m * N + i)%nat * D m ((j + N - i) mod N)%nat)) with (cmul (ofR (x (m * N + i)%nat)) (ofR (D m ((j + N - i) mod N)%nat))) by (ceq; ring). ring. }
    rewrite csumn_swap. apply csumn_ext. intros m Hm. rewrite csumn_swap.
    rewrite (csumn_ext N _ (fun i => cmul (cmul (ofR (x (m * N + i)%nat)) (ru N (- (Z.of_nat i * Z.of_nat k)))) (cb_Df N D m k))).
    2:{ intros i Hi. rewrite csumn_scal, (dft_shift N (fun l => ofR (D m l)) i k Hi). unfold cb_Df. ring. }
    rewrite csumn_scal_r. unfold cb_fwd. rewrite cut_in by assumption. unfold dft at 1. ring. }
  rewrite A. unfold dft. set (u := csumn N _). set (v := csumn N (fun j => cmul (ofR (s j)) _)).
  rewrite (csumn_ext N (fun j => cmul (ofR (cconv N M D x j - s j)) (ru N (- (Z.of_nat j * Z.of_nat k)))) (fun j => cadd (cmul (ofR (cconv N M D x j)) (ru N (- (Z.of_nat j * Z.of_nat k)))) (cmul (ofR (-1)) (cmul (ofR (s j)) (ru N (- (Z.of_nat j * Z.of_nat k))))))).
  2:{ intros j _. replace (ofR (cconv N M D x j - s j)) with (cadd (ofR (cconv N M D x j)) (cmul (ofR (-1)) (ofR (s j)))) by (ceq; ring). ring. }
  rewrite csumn_plus, csumn_scal. fold u v. ceq; ring.
Qed.
Lemma fwd_corr (r : vec) : fwd (ccorr N D r) = cut M (fun m k => cmul (conj (cb_Df N D m k)) (dft N (fun j => ofR (r j)) k)).
Proof.
  unfold cb_fwd, ccorr. apply cut_ext. intros m k _. unfold dft at 1.
  rewrite (csumn_ext N _ (fun i => csumn N (fun j => cmul (ofR (r j)) (cmul (ofR (D m ((j + N - i) mod N)%nat)) (ru N (- (Z.of_nat i * Z.of_nat k))))))).
  2:{ intros i Hi. rewrite <- csumn_ofR, <- csumn_scal_r. apply csumn_ext. intros j _. rewrite div_at, mod_at by exact Hi.
      replace (ofR (r j * D m ((j + N - i) mod N)%nat)) with (cmul (ofR (r j)) (ofR (D m ((j + N - i) mod N)%nat))) by (ceq; ring). ring. }
  rewrite csumn_swap. rewrite (csumn_ext N _ (fun j => cmul (cmul (ofR (r j)) (ru N (- (Z.of_nat j * Z.of_nat k)))) (conj (cb_Df N D m k)))).
  2:{ intros j Hj. rewrite csumn_scal, (dft_reflect N (D m) j k Hj). unfold cb_Df. ring. }
  rewrite csumn_scal_r. unfold dft. ring.
Qed.
Lemma fwd_add2 x y : wadd2 (fwd x) (fwd y) = fwd (fun i => x i + y i).
Proof.
  extensionality m; extensionality k. unfold wadd2, cb_fwd, cut. destruct (Nat.ltb m M); [|ceq; ring]. unfold dft. rewrite <- csumn_plus. apply csumn_ext. intros j _.
  replace (ofR (x (m * N + j)%nat + y (m * N + j)%nat)) with (cadd (ofR (x (m * N + j)%nat)) (ofR (y (m * N + j)%nat))) by (ceq; ring). ring.
Qed.
Lemma fwd_scal2 r x : wscal2 r (fwd x) = fwd (fun i => r * x i).
Proof.
  extensionality m; extensionality k. unfold wscal2, cb_fwd, cut. destruct (Nat.ltb m M); [|ceq; ring]. unfold dft. rewrite cscal_mul, <- csumn_scal. apply csumn_ext. intros j _.
  replace (ofR (r * x (m * N + j)%nat)) with (cmul (ofR r) (ofR (x (m * N + j)%nat))) by (ceq; ring). ring.
Qed.
Lemma inv_fwd2 x p : (p < n)%nat -> inv (fwd x) p = x p.
Proof.
  intros Hp. unfold cb_inv, cb_fwd. assert (Hm : (p / N < M)%nat) by (apply Nat.div_lt_upper_bound; lia).
  rewrite (irfft_ext N _ (dft N (fun j => ofR (x (p / N * N + j)%nat)))) by (try exact HN; intros; apply cut_in; exact Hm). rewrite (irfft_dft N (fun j => x (p / N * N + j)%nat)) by (apply Nat.mod_upper_bound; lia).
  f_equal. rewrite (Nat.div_mod p N) at 3 by lia. lia.
Qed.
Lemma dfd_eq x : cb_dfd N M D s (fwd x) = lsq N (cconv N M D) s x.
Proof.
  unfold cb_dfd, lsq, rfl2norm2. cbn [last seq filter Nat.eqb negb rsum prodn].
  pose proof (rfft_norm N (fun j => cconv N M D x j - s j) HN) as H. cbv zeta in H.
  rewrite !Rmult_1_r. unfold upd. cbn [Nat.eqb].
  replace (N / 2 + 1 - 1)%nat with (N / 2)%nat by lia.
  rewrite (sumn_ext _ (fun k => cabs2 (cb_Rf N M D s (fwd x) (S k))) (fun k => cabs2 (dft N (fun j => ofR (cconv N M D x j - s j)) (S k)))) by (intros; rewrite Rf_eq; reflexivity).
  rewrite !Rf_eq, H. unfold nrm2, dot. field. apply not_0_INR. lia.
Qed.
Lemma fwd_local2 x y : (forall i, (i < n)%nat -> x i = y i) -> fwd x = fwd y.
Proof.
  intros H. unfold cb_fwd. apply cut_ext. intros m k Hm. unfold dft. apply csumn_ext. intros j Hj. rewrite H; [reflexivity|]. nia.
Qed.
Lemma grad_eq x : cb_grad N M D s (fwd x) = fwd (ccorr N D (fun j => cconv N M D x j - s j)).
Proof. rewrite fwd_corr. unfold cb_grad. apply cut_ext. intros m k _. rewrite Rf_eq. reflexivity. Qed.
(** The masked problem. *)
Variable Wm : vec.
Lemma irfft_Rf x j : (j < N)%nat -> irfft N (cb_Rf N M D s (fwd x)) j = cconv N M D x j - s j.
Proof. intros Hj. rewrite (irfft_ext N _ (dft N (fun i => ofR (cconv N M D x i - s i)))) by (try exact HN; intros; apply Rf_eq). apply (irfft_dft N (fun i => cconv N M D x i - s i) j Hj). Qed.
Lemma gradm_eq x : cbm_grad N M D s Wm (fwd x) = fwd (ccorr N D (fun j => Wm j ^ 2 * (cconv N M D x j - s j))).
Proof.
  rewrite fwd_corr. unfold cbm_grad. apply cut_ext. intros m k _. f_equal. apply dft_ext. intros j Hj. rewrite irfft_Rf by exact Hj. reflexivity.
Qed.
Definition mconv (x : vec) : vec := fun j => Wm j * cconv N M D x j.
Definition mcorr (r : vec) : vec := ccorr N D (fun j => Wm j * r j).
Lemma mconv_linear : linear_map mconv.
Proof. intros a x b y p. unfold mconv. rewrite (cconv_linear a x b y p). ring. Qed.
Lemma mconv_adjoint : adjoint_of n N mconv mcorr.
Proof. intros x r. unfold mconv, mcorr. rewrite <- (cconv_adjoint x (fun j => Wm j * r j)). unfold dot. apply sumn_ext. intros. ring. Qed.
Lemma dfdm_eq x : cbm_dfd N M D s Wm (fwd x) = lsq N mconv (fun j => Wm j * s j) x.
Proof.
  unfold cbm_dfd, lsq. rewrite (sumn_ext N _ (fun j => (mconv x j - Wm j * s j) * (mconv x j - Wm j * s j))).
  2:{ intros j Hj. rewrite irfft_Rf by exact Hj. unfold mconv. ring. }
  change (sumn N (fun j => (mconv x j - Wm j * s j) * (mconv x j - Wm j * s j))) with (nrm2 N (fun j => mconv x j - Wm j * s j)).
  rewrite <- Rsqr_pow2, Rsqr_sqrt by apply nrm2_nonneg. field.
Qed.
Lemma ccorr_sub r q p : ccorr N D (fun j => r j - q j) p = ccorr N D r p - ccorr N D q p.
Proof. unfold ccorr. rewrite <- sumn_minus. apply sumn_ext. intros. ring. Qed.
(** Largest gain of the filters: a step parameter for which the quadratic bound holds. *)
Lemma cs_cplx (m : nat) (a b : nat -> C) : cabs2 (csumn m (fun i => cmul (a i) (b i))) <= sumn m (fun i => cabs2 (a i)) * sumn m (fun i => cabs2 (b i)).
Proof.
  (* sum of the squared moduli of a_i conj(b_j) - a_j conj(b_i), by induction *)
  induction m as [|m IH]; [unfold csumn, cabs2; simpl; lra|]. rewrite csumn_S. cbn [sumn].
  set (P := csumn m _) in *. set (A := sumn m (fun i => cabs2 (a i))) in *. set (B := sumn m (fun i => cabs2 (b i))) in *. set (u := a m). set (v := b m).
  assert (A0 : 0 <= A) by (apply sumn_nonneg; intros; apply cabs2_nonneg). assert (B0 : 0 <= B) by (apply sumn_nonneg; intros; apply cabs2_nonneg).
  assert (X : cabs2 (cadd P (cmul u v)) <= cabs2 P + 2 * (sqrt (cabs2 P) * sqrt (cabs2 (cmul u v))) + cabs2 (cmul u v)).
  { assert (K : re P * re (cmul u v) + im P * im (cmul u v) <= sqrt (cabs2 P) * sqrt (cabs2 (cmul u v))).
    { rewrite <- sqrt_mult by apply cabs2_nonneg. apply Rle_trans with (sqrt ((re P * re (cmul u v) + im P * im (cmul u v)) * (re P * re (cmul u v) + im P * im (cmul u v)))).
      - destruct (Rle_lt_dec 0 (re P * re (cmul u v) + im P * im (cmul u v))) as [H|H]; [rewrite sqrt_square by exact H; lra|].
        pose proof (sqrt_pos ((re P * re (cmul u v) + im P * im (cmul u v)) * (re P * re (cmul u v) + im P * im (cmul u v)))). lra.
      - apply sqrt_le_1_alt. unfold cabs2. pose proof (Rle_0_sqr (re P * im (cmul u v) - im P * re (cmul u v))) as Q. unfold Rsqr in Q. nra. }
    assert (X0 : cabs2 (cadd P (cmul u v)) = cabs2 P + 2 * (re P * re (cmul u v) + im P * im (cmul u v)) + cabs2 (cmul u v)) by (generalize (cmul u v); intros w; destruct P, w; unfold cabs2, cadd, re, im; simpl; ring).
    rewrite X0. lra. }
  eapply Rle_trans; [exact X|]. rewrite cabs2_mul.
  assert (Y : sqrt (cabs2 P) * sqrt (cabs2 u * cabs2 v) <= sqrt (A * cabs2 v) * sqrt (cabs2 u * B)).
  { rewrite <- !sqrt_mult; try (apply Rmult_le_pos); try apply cabs2_nonneg; try assumption. apply sqrt_le_1_alt.
    replace (A * cabs2 v * (cabs2 u * B)) with (A * B * (cabs2 u * cabs2 v)) by ring. apply Rmult_le_compat_r; [apply Rmult_le_pos; apply cabs2_nonneg|exact IH]. }
  assert (Z : 2 * (sqrt (A * cabs2 v) * sqrt (cabs2 u * B)) <= A * cabs2 v + cabs2 u * B).
  { pose proof (Rle_0_sqr (sqrt (A * cabs2 v) - sqrt (cabs2 u * B))) as Q. unfold Rsqr in Q.
    assert (Q1 : sqrt (A * cabs2 v) * sqrt (A * cabs2 v) = A * cabs2 v) by (apply sqrt_sqrt, Rmult_le_pos; [exact A0|apply cabs2_nonneg]).
    assert (Q2 : sqrt (cabs2 u * B) * sqrt (cabs2 u * B) = cabs2 u * B) by (apply sqrt_sqrt, Rmult_le_pos; [apply cabs2_nonneg|exact B0]). lra. }
  lra.
Qed.
Lemma cconv_bound L : (forall k, (k < N)%nat -> sumn M (fun m => cabs2 (cb_Df N D m k)) <= L) -> forall x, nrm2 N (cconv N M D x) <= L * nrm2 n x.
Proof.
  intros HL x. assert (Np : 0 < INR N) by (apply lt_0_INR; exact HN).
  assert (P1 : INR N * nrm2 N (cconv N M D x) = sumn N (fun k => cabs2 (dft N (fun j => ofR (cconv N M D x j)) k))).
  { rewrite parseval by exact HN. f_equal. unfold nrm2, dot. apply sumn_ext. intros. unfold cabs2, ofR, re, im. simpl. ring. }
  assert (P2 : INR N * nrm2 n x = sumn N (fun k => sumn M (fun m => cabs2 (fwd x m k)))).
  { unfold nrm2. rewrite (dot_rows M N x x HN), <- sumn_scal, sumn_swap. apply sumn_ext. intros m Hm. unfold dot, row.
    rewrite (sumn_ext N (fun k => cabs2 (fwd x m k)) (fun k => cabs2 (dft N (fun j => ofR (x (m * N + j)%nat)) k))) by (intros; unfold cb_fwd; rewrite cut_in by exact Hm; reflexivity).
    rewrite parseval by exact HN. f_equal. apply sumn_ext. intros. unfold cabs2, ofR, re, im. simpl. ring. }
  apply (Rmult_le_reg_l (INR N)); [exact Np|]. rewrite P1. replace (INR N * (L * nrm2 n x)) with (L * (INR N * nrm2 n x)) by ring. rewrite P2, <- sumn_scal.
  apply sumn_le. intros k Hk.
  assert (E : dft N (fun j => ofR (cconv N M D x j)) k = csumn M (fun m => cmul (cb_Df N D m k) (fwd x m k))).
  { pose proof (Rf_eq x k) as H. unfold cb_Rf in H. apply (f_equal (fun z => cadd z (cb_Sf N s k))) in H.
    assert (S1 : csumn M (fun m => cmul (cb_Df N D m k) (fwd x m k)) = cadd (dft N (fun j => ofR (cconv N M D x j - s j)) k) (cb_Sf N s k)) by (rewrite <- H; ring).
    rewrite S1. unfold cb_Sf, dft. rewrite <- csumn_plus. apply csumn_ext. intros j _. replace (ofR (cconv N M D x j)) with (cadd (ofR (cconv N M D x j - s j)) (ofR (s j))) by (ceq; ring). ring. }
  rewrite E. eapply Rle_trans; [apply cs_cplx|]. apply Rmult_le_compat_r; [apply sumn_nonneg; intros; apply cabs2_nonneg|apply HL, Hk].
Qed.
End cb.
