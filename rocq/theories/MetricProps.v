(** C56: image quality metrics behave as distances. *)
Require Import Arith ZArith Reals Lra Lia Psatz.
Require Import Verif.RVec Verif.Cplx Verif.CproxModel Verif.CproxProps Verif.MetricModel.
Local Open Scope R_scope.

Lemma csub_0 x y : csub x y = c0 <-> x = y.
Proof.
  unfold csub, cadd, copp, c0. split; [intros H; injection H; intros; apply c_eq; unfold re, im in *; simpl in *; lra|intros ->; f_equal; unfold re, im; simpl; lra].
Qed.
Lemma cabs_sym x y : cabs (csub x y) = cabs (csub y x).
Proof. unfold cabs. f_equal. unfold cabs2, csub, cadd, copp, re, im. cbn [fst snd]. ring. Qed.
Lemma cabs_triang x y : cabs (cadd x y) <= cabs x + cabs y.
Proof.
  apply Rsqr_incr_0_var; [|pose proof (cabs_pos x); pose proof (cabs_pos y); lra]. unfold Rsqr. rewrite cabs_sq.
  replace ((cabs x + cabs y) * (cabs x + cabs y)) with (cabs x * cabs x + 2 * (cabs x * cabs y) + cabs y * cabs y) by ring. rewrite !cabs_sq.
  pose proof (cabs_cs x y). unfold cadd, re, im in *. cbn [fst snd]. nra.
Qed.
Lemma csub_split x y z : csub x z = cadd (csub x y) (csub y z).
Proof. unfold csub, cadd, copp, re, im. cbn [fst snd]. f_equal; ring. Qed.

(** Both are zero exactly for equal images, nonnegative, symmetric; mae satisfies the triangle inequality. *)
Theorem C56_mae n : (0 < n)%nat -> forall x y z,
  0 <= mae n x y /\ mae n x y = mae n y x /\ (mae n x y = 0 <-> forall i, (i < n)%nat -> x i = y i) /\ mae n x z <= mae n x y + mae n y z.
Proof.
  intros Hn x y z. assert (HN : 0 < INR n) by (apply lt_0_INR; exact Hn). unfold mae.
  assert (NN : 0 <= sumn n (fun i => cabs (csub (x i) (y i)))) by (apply sumn_nonneg; intros; apply cabs_pos).
  split; [apply Rmult_le_pos; [exact NN|left; apply Rinv_0_lt_compat; exact HN]|].
  split; [f_equal; apply sumn_ext; intros i _; apply cabs_sym|]. split.
  - split.
    + intros H i Hi. assert (Z : sumn n (fun i => cabs (csub (x i) (y i))) = 0).
      { apply (Rmult_eq_compat_r (INR n)) in H. unfold Rdiv in H. rewrite Rmult_assoc, Rinv_l in H by lra. lra. }
      apply csub_0, cabs_0. apply (sumn_nonneg_0 n (fun i => cabs (csub (x i) (y i)))); [intros; apply cabs_pos|exact Z|exact Hi].
    + intros H. rewrite sumn_0; [unfold Rdiv; ring|]. intros i Hi. apply cabs_0, csub_0, H, Hi.
  - unfold Rdiv. rewrite <- Rmult_plus_distr_r. apply Rmult_le_compat_r; [left; apply Rinv_0_lt_compat; exact HN|]. rewrite <- sumn_plus. apply sumn_le. intros i _. rewrite (csub_split (x i) (y i) (z i)). apply cabs_triang.
Qed.
(** The square root of mse satisfies the triangle inequality. *)
Definition flat2 (n : nat) (v : img) : nat -> R := fun i => if Nat.ltb i n then re (v i) else im (v (i - n)%nat).
Lemma mse_nrm n x y : mse n x y = nrm2 (n + n) (vsub (flat2 n x) (flat2 n y)) / INR n.
Proof.
  unfold mse. f_equal. unfold nrm2, dot. rewrite sumn_split, <- sumn_plus. apply sumn_ext. intros i Hi. unfold vsub, flat2.
  rewrite (proj2 (Nat.ltb_lt i n) Hi). rewrite (proj2 (Nat.ltb_ge (n + i) n) ltac:(lia)). replace (n + i - n)%nat with i by lia.
  replace (cabs (csub (x i) (y i)) ^ 2) with (cabs (csub (x i) (y i)) * cabs (csub (x i) (y i))) by ring. rewrite cabs_sq. unfold csub, cadd, copp, re, im. cbn [fst snd]. ring.
Qed.
Theorem C56_mse n : (0 < n)%nat -> forall x y z,
  0 <= mse n x y /\ mse n x y = mse n y x /\ (mse n x y = 0 <-> forall i, (i < n)%nat -> x i = y i) /\ sqrt (mse n x z) <= sqrt (mse n x y) + sqrt (mse n y z).
Proof.
  intros Hn x y z. assert (HN : 0 < INR n) by (apply lt_0_INR; exact Hn). assert (HI : 0 < / INR n) by (apply Rinv_0_lt_compat; exact HN).
  assert (NN : 0 <= sumn n (fun i => cabs (csub (x i) (y i)) ^ 2)) by (apply sumn_nonneg; intros; apply pow2_ge_0).
  split; [apply Rmult_le_pos; [exact NN|lra]|]. split; [unfold mse; f_equal; apply sumn_ext; intros i _; rewrite cabs_sym; reflexivity|]. split.
  - unfold mse. split.
    + intros H i Hi. assert (Z : sumn n (fun i => cabs (csub (x i) (y i)) ^ 2) = 0).
      { apply (Rmult_eq_compat_r (INR n)) in H. unfold Rdiv in H. rewrite Rmult_assoc, Rinv_l in H by lra. lra. }
      apply csub_0, cabs_0. pose proof (sumn_nonneg_0 n _ (fun i _ => pow2_ge_0 (cabs (csub (x i) (y i)))) Z i Hi) as Q. cbv beta in Q. apply Rsqr_0_uniq. rewrite Rsqr_pow2. exact Q.
    + intros H. rewrite sumn_0; [unfold Rdiv; ring|]. intros i Hi. rewrite (proj2 (cabs_0 _) (proj2 (csub_0 _ _) (H i Hi))). ring.
  - rewrite !mse_nrm. unfold Rdiv. rewrite !sqrt_mult by (try apply nrm2_nonneg; lra). rewrite <- Rmult_plus_distr_r. apply Rmult_le_compat_r; [apply sqrt_pos|].
    fold (nrm (n + n) (vsub (flat2 n x) (flat2 n z))). fold (nrm (n + n) (vsub (flat2 n x) (flat2 n y))). fold (nrm (n + n) (vsub (flat2 n y) (flat2 n z))).
    rewrite (nrm_ext (n + n) (vsub (flat2 n x) (flat2 n z)) (vadd (vsub (flat2 n x) (flat2 n y)) (vsub (flat2 n y) (flat2 n z)))); [apply nrm_triang|]. intros i _. unfold vsub, vadd. ring.
Qed.
(** ** Decibels *)
Definition db_lt (x y : db) : Prop :=
  match x, y with NInf, Fin _ => True | NInf, PInf => True | Fin _, PInf => True | Fin a, Fin b => a < b | _, _ => False end.
Lemma ln10_pos : 0 < ln 10. Proof. rewrite <- ln_1. apply ln_increasing; lra. Qed.
Lemma decibel_fin a b : 0 < a -> 0 < b -> decibel a b = Fin (10 * log10 (a / b)).
Proof. intros Ha Hb. unfold decibel. destruct (Req_EM_T b 0); [lra|]. destruct (Req_EM_T a 0); [lra|reflexivity]. Qed.
Lemma decibel_lt a b b' : 0 < a -> 0 <= b < b' -> db_lt (decibel a b') (decibel a b).
Proof.
  intros Ha [Hb Hb']. rewrite (decibel_fin a b') by lra. unfold decibel. destruct (Req_EM_T b 0) as [E|E].
  - destruct (Req_EM_T a 0); [lra|exact I].
  - destruct (Req_EM_T a 0); [lra|]. cbn. unfold log10, Rdiv. pose proof ln10_pos as L. apply Rmult_lt_compat_l; [lra|]. apply Rmult_lt_compat_r; [apply Rinv_0_lt_compat, L|].
    apply ln_increasing; [apply Rdiv_lt_0_compat; lra|]. apply Rmult_lt_compat_l; [lra|]. apply Rinv_lt_contravar; [apply Rmult_lt_0_compat; lra|lra].
Qed.
Lemma decibel_scale a b k : 0 < k -> decibel (k * a) (k * b) = decibel a b.
Proof.
  intros Hk. unfold decibel. destruct (Req_EM_T b 0) as [->|Eb].
  - rewrite Rmult_0_r. destruct (Req_EM_T 0 0); [|lra]. destruct (Req_EM_T a 0) as [->|Ea]; [rewrite Rmult_0_r; destruct (Req_EM_T 0 0); [reflexivity|lra]|].
    destruct (Req_EM_T (k * a) 0) as [E|E]; [apply Rmult_integral in E; lra|reflexivity].
  - destruct (Req_EM_T (k * b) 0) as [E|_]; [apply Rmult_integral in E; lra|]. destruct (Req_EM_T a 0) as [->|Ea]; [rewrite Rmult_0_r; destruct (Req_EM_T 0 0); [reflexivity|lra]|].
    destruct (Req_EM_T (k * a) 0) as [E|E]; [apply Rmult_integral in E; lra|]. do 3 f_equal. field. split; lra.
Qed.
(** A smaller error strictly raises snr and psnr. *)
Theorem C56_snr_decreasing n v x y : (0 < n)%nat -> 0 < var n v -> mse n v x < mse n v y -> db_lt (snr n v y) (snr n v x).
Proof. intros Hn Hv H. apply decibel_lt; [exact Hv|]. split; [apply C56_mse; assumption|exact H]. Qed.
Theorem C56_psnr_decreasing n v x y rng : (0 < n)%nat -> rng <> 0 -> mse n (real v) x < mse n (real v) y ->
  db_lt (psnr Rminus n v y (Some rng)) (psnr Rminus n v x (Some rng)).
Proof.
  intros Hn Hr H. apply decibel_lt; [pose proof (pow2_ge_0 rng); assert (rng ^ 2 <> 0) by (apply pow_nonzero, Hr); lra|]. split; [apply C56_mse; assumption|exact H].
Qed.
Lemma amax_scale n v a b : 0 < a -> (0 < n)%nat -> amax n (fun i => a * v i + b) = a * amax n v + b.
Proof.
  intros Ha. induction n as [|[|n] IH]; intros Hn; [lia|reflexivity|]. cbn [amax] in *. rewrite IH by lia. unfold Rmax. repeat destruct Rle_dec; try reflexivity; nra.
Qed.
Lemma amin_scale n v a b : 0 < a -> (0 < n)%nat -> amin n (fun i => a * v i + b) = a * amin n v + b.
Proof.
  intros Ha. induction n as [|[|n] IH]; intros Hn; [lia|reflexivity|]. cbn [amin] in *. rewrite IH by lia. unfold Rmin. repeat destruct Rle_dec; try reflexivity; nra.
Qed.
Definition affine_img (a : R) (b : C) (v : img) : img := fun i => cadd (cscal a (v i)) b.
Lemma cabs2_scal a z : cabs (cscal a z) ^ 2 = a ^ 2 * cabs z ^ 2.
Proof. replace (cabs (cscal a z) ^ 2) with (cabs (cscal a z) * cabs (cscal a z)) by ring. replace (cabs z ^ 2) with (cabs z * cabs z) by ring. rewrite !cabs_sq. unfold cscal, re, im. cbn [fst snd]. ring. Qed.
Lemma mse_affine n a b x y : mse n (affine_img a b x) (affine_img a b y) = a ^ 2 * mse n x y.
Proof.
  unfold mse, Rdiv. rewrite <- Rmult_assoc, <- sumn_scal. f_equal. apply sumn_ext. intros i _. rewrite <- cabs2_scal. do 2 f_equal.
  unfold affine_img, csub, cadd, copp, cscal, re, im. cbn [fst snd]. f_equal; ring.
Qed.
Lemma mean_affine n a b x : (0 < n)%nat -> mean n (affine_img a b x) = cadd (cscal a (mean n x)) b.
Proof.
  intros Hn. assert (0 < INR n) by (apply lt_0_INR; exact Hn). unfold mean, affine_img, csumn, cscal, cadd, re, im. cbn [fst snd]. rewrite !sumn_plus, !sumn_scal, !sumn_const. f_equal; field; lra.
Qed.
Lemma var_affine n a b x : (0 < n)%nat -> var n (affine_img a b x) = a ^ 2 * var n x.
Proof.
  intros Hn. unfold var, Rdiv. rewrite <- Rmult_assoc, <- sumn_scal. f_equal. apply sumn_ext. intros i _. rewrite <- cabs2_scal. do 2 f_equal. rewrite (mean_affine n a b x Hn).
  unfold affine_img, csub, cadd, copp, cscal, re, im. cbn [fst snd]. f_equal; ring.
Qed.
(** The same change of scale and offset of both images does not change any of the decibel metrics. *)
Theorem C56_invariant n a b : (0 < n)%nat -> a <> 0 ->
  (forall x y, snr n (affine_img a b x) (affine_img a b y) = snr n x y) /\
  (forall x y z, isnr n (affine_img a b x) (affine_img a b y) (affine_img a b z) = isnr n x y z) /\
  (forall v y, 0 < a -> im b = 0 -> psnr Rminus n (fun i => a * v i + re b) (affine_img a b y) None = psnr Rminus n v y None) /\
  (forall x y c, bsnr n (affine_img a b x) (fun i => csub (affine_img a c y i) (affine_img a b x i)) = bsnr n x (fun i => csub (y i) (x i))).
Proof.
  intros Hn Ha. assert (Ha2 : 0 < a ^ 2) by (pose proof (pow2_ge_0 a); assert (a ^ 2 <> 0) by (apply pow_nonzero, Ha); lra). split; [|split; [|split]].
  - intros x y. unfold snr. rewrite var_affine, mse_affine by exact Hn. apply decibel_scale, Ha2.
  - intros x y z. unfold isnr. rewrite !mse_affine. apply decibel_scale, Ha2.
  - intros v y Hp Hb. unfold psnr. rewrite amax_scale, amin_scale by assumption.
    assert (E : mse n (real (fun i => a * v i + re b)) (affine_img a b y) = a ^ 2 * mse n (real v) y).
    { rewrite <- (mse_affine n a b). unfold mse. f_equal. apply sumn_ext. intros i _. do 2 f_equal. unfold real, affine_img, csub, cadd, copp, cscal, ofR, re, im in *. cbn [fst snd]. rewrite Hb. f_equal; ring. }
    rewrite E. replace (Rabs (a * amax n v + re b - (a * amin n v + re b)) ^ 2) with (a ^ 2 * Rabs (amax n v - amin n v) ^ 2); [apply decibel_scale, Ha2|].
    rewrite <- !Rsqr_pow2, <- !Rsqr_abs, !Rsqr_pow2. ring.
  - intros x y c. unfold bsnr. rewrite var_affine by exact Hn.
    assert (E : var n (fun i => csub (affine_img a c y i) (affine_img a b x i)) = var n (affine_img a (csub c b) (fun i => csub (y i) (x i)))).
    { assert (P : forall i, csub (affine_img a c y i) (affine_img a b x i) = affine_img a (csub c b) (fun i => csub (y i) (x i)) i)
        by (intro i; unfold affine_img, csub, cadd, copp, cscal, re, im; cbn [fst snd]; f_equal; ring).
      assert (M : mean n (fun i => csub (affine_img a c y i) (affine_img a b x i)) = mean n (affine_img a (csub c b) (fun i => csub (y i) (x i))))
        by (unfold mean, csumn; f_equal; f_equal; apply sumn_ext; intros i _; rewrite P; reflexivity).
      unfold var. rewrite M. f_equal. apply sumn_ext. intros i _. rewrite P. reflexivity. }
    rewrite E, var_affine by exact Hn. apply decibel_scale, Ha2.
Qed.
(** The improvement is the difference of the signal to noise ratios, and does not depend on which of the two ratios is used. *)
Theorem C56_isnr n v d r : 0 < mse n v d -> 0 < mse n v r -> 0 < var n v -> exists s1 s2, snr n v r = Fin s1 /\ snr n v d = Fin s2 /\ isnr n v d r = Fin (s1 - s2).
Proof.
  intros Hd Hr Hv. unfold snr, isnr. rewrite !decibel_fin by assumption. do 2 eexists. split; [reflexivity|]. split; [reflexivity|]. f_equal. unfold log10, Rdiv.
  rewrite !ln_mult by (try assumption; apply Rinv_0_lt_compat; assumption). rewrite !ln_Rinv by assumption. ring.
Qed.
(** ** Integer images *)
(** psnr of an int8 image uses a wrapped range: for the image (127, -128) it is 1 instead of 255. *)
Theorem C56_psnr_int8_refuted : exists (v : nat -> Z) (w : img),
  amax 2 (fun i => IZR (v i)) = IZR 127 /\ amin 2 (fun i => IZR (v i)) = IZR (-128) /\
  let sub8 a b := IZR (wrap_int8 (up a - 1) (up b - 1)) in
  exists x y, psnr sub8 2 (fun i => IZR (v i)) w None = Fin x /\ psnr Rminus 2 (fun i => IZR (v i)) w None = Fin y /\ x + 48 < y.
Proof.
  exists (fun i => match i with O => 127 | _ => -128 end)%Z, (fun _ => c0).
  assert (EM : amax 2 (fun i => IZR (match i with O => 127 | _ => -128 end)) = IZR 127) by (cbn [amax]; apply Rmax_left; lra).
  assert (Em : amin 2 (fun i => IZR (match i with O => 127 | _ => -128 end)) = IZR (-128)) by (cbn [amin]; apply Rmin_right; lra).
  split; [exact EM|]. split; [exact Em|]. intros sub8.
  assert (U : forall z, (up (IZR z) - 1 = z)%Z). { intros z. rewrite <- (tech_up (IZR z) (z + 1)); [lia|rewrite plus_IZR; lra|rewrite plus_IZR; lra]. }
  assert (ES : sub8 (IZR 127) (IZR (-128)) = -1) by (unfold sub8; rewrite !U; reflexivity).
  unfold psnr. rewrite EM, Em, ES. set (m := mse 2 _ _). assert (Hm : 0 < m).
  { destruct (C56_mse 2 ltac:(lia) (real (fun i => IZR (match i with O => 127 | _ => -128 end))) (fun _ => c0) (fun _ => c0)) as (P & _ & Q & _). fold m in P, Q.
    destruct P as [P|P]; [exact P|]. exfalso. symmetry in P. pose proof (proj1 Q P O ltac:(lia)) as K. unfold real, ofR, c0 in K. injection K. intros. lra. }
  replace (Rabs (-1) ^ 2) with 1 by (rewrite Rabs_left by lra; ring). replace (Rabs (IZR 127 - IZR (-128)) ^ 2) with (255 ^ 2) by (rewrite Rabs_right by lra; ring).
  rewrite !decibel_fin by lra. do 2 eexists. split; [reflexivity|]. split; [reflexivity|].
  unfold log10, Rdiv. rewrite !ln_mult by (try lra; apply Rinv_0_lt_compat; lra). rewrite ln_1. pose proof ln10_pos as L10.
  (* 20 log10 255 > 48, since 255^20 > 10^48 *)
  assert (K : 48 * ln 10 < 10 * ln (255 ^ 2)).
  { replace (48 * ln 10) with (INR 48 * ln 10) by (simpl; ring). replace (10 * ln (255 ^ 2)) with (INR 10 * ln (255 ^ 2)) by (simpl INR; ring).
    rewrite <- !ln_pow by lra. apply ln_increasing; [apply pow_lt; lra|]. rewrite <- pow_mult. change (2 * 10)%nat with 20%nat. rewrite !pow_IZR. apply IZR_lt. reflexivity. }
  apply (Rmult_lt_compat_r (/ ln 10)) in K; [|apply Rinv_0_lt_compat; exact L10]. rewrite (Rmult_assoc 48), Rinv_r in K by lra. lra.
Qed.
(** bsnr of uint8 images wraps the negative differences around: the noise of (1, 3) with respect to (0, 4) has variance 1, the code finds 127^2,
    and the ratio it returns is too small. *)
Theorem C56_bsnr_uint8_refuted : exists (vblr vnsy : nat -> Z),
  let diff := fun i => IZR (vnsy i - vblr i) in let wrapped := fun i => IZR (wrap_uint8 (vnsy i) (vblr i)) in
  var 2 (real diff) = 1 /\ var 2 (real wrapped) = 127 ^ 2 /\
  db_lt (bsnr 2 (real (fun i => IZR (vblr i))) (real wrapped)) (bsnr 2 (real (fun i => IZR (vblr i))) (real diff)).
Proof.
  exists (fun i => match i with O => 1 | _ => 3 end)%Z, (fun i => match i with O => 0 | _ => 4 end)%Z. cbv zeta. change (wrap_uint8 0 1) with 255%Z.
  match goal with |- ?A /\ ?B /\ ?D => assert (AB : A /\ B); [| destruct AB as [EA EB]; split; [exact EA | split; [exact EB |]]] end.
  2: { unfold bsnr. rewrite EA, EB. apply decibel_lt; [| lra].
       unfold var, mean; cbn [sumn]; rewrite !(fun z => eq_trans (eq_sym (Rsqr_pow2 _)) (cabs_sq z)); unfold csub, cadd, copp, cscal, csumn, real, ofR, re, im; cbn [fst snd sumn]; simpl INR. lra. }
  split; unfold var, mean; cbn [sumn]; rewrite !(fun z => eq_trans (eq_sym (Rsqr_pow2 _)) (cabs_sq z)); unfold csub, cadd, copp, cscal, csumn, real, ofR, re, im, wrap_uint8; cbn [fst snd sumn]; simpl INR.
  - change (IZR (0 - 1)) with (IZR (-1)). change (IZR (4 - 3)) with 1. field.
  - change (IZR ((0 - 1) mod 256)) with (IZR 255). change (IZR ((4 - 3) mod 256)) with 1. field.
Qed.
Example C56_ex : mse 2 (real (fun i => INR i)) (real (fun _ => 0)) = 1 / 2 /\ amax 3 (fun i => INR i) = 2.
Proof.
  split; [|cbn [amax]; simpl INR; rewrite (Rmax_right 0 1) by lra; rewrite Rmax_right by lra; lra]. unfold mse. cbn [sumn]. rewrite !(fun z => eq_trans (eq_sym (Rsqr_pow2 _)) (cabs_sq z)). unfold csub, cadd, copp, real, ofR, re, im. cbn [fst snd]. simpl INR. field.
Qed.
Print Assumptions C56_mae. Print Assumptions C56_mse. Print Assumptions C56_snr_decreasing. Print Assumptions C56_psnr_decreasing. Print Assumptions C56_invariant. Print Assumptions C56_isnr. Print Assumptions C56_psnr_int8_refuted. Print Assumptions C56_bsnr_uint8_refuted.
