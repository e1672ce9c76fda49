(** The cosine transforms of SplModel are inverse to each other and diagonalise the second difference operator. *)
Require Import List Arith Reals Bool Lra Lia FunctionalExtensionality.
Require Import Verif.RVec Verif.FftModel Verif.FftProofs Verif.CscSpec Verif.CscIterModel Verif.CscIterProofs Verif.CcmProofs Verif.AdmmModel Verif.ProxModel.
Require Import Verif.SplModel Verif.SplSpec.
Import ListNotations.
Local Open Scope R_scope.

(** ** Sums of cosines *)
Lemma cos_sum a n : 2 * sin a * sumn n (fun j => cos (a * (2 * INR j + 1))) = sin (a * (2 * INR n)).
Proof.
  induction n as [|n IH]; [cbn [sumn INR]; rewrite !Rmult_0_r, sin_0; reflexivity|]. cbn [sumn]. rewrite Rmult_plus_distr_l, IH, S_INR.
  replace (a * (2 * INR n)) with (a * (2 * INR n + 1) - a) by ring. replace (a * (2 * (INR n + 1))) with (a * (2 * INR n + 1) + a) by ring.
  rewrite sin_minus, sin_plus. ring.
Qed.
Lemma sin_INR_PI m : sin (INR m * PI) = 0.
Proof. apply sin_eq_0_1. exists (Z.of_nat m). rewrite <- INR_IZR_INZ. reflexivity. Qed.
Lemma sin_half m N : (0 < m < 2 * N)%nat -> sin (PI * INR m / (2 * INR N)) <> 0.
Proof.
  intros [H1 H2]. assert (HN : 0 < INR N) by (apply lt_0_INR; lia). assert (Hm : 0 < INR m) by (apply lt_0_INR; exact H1).
  assert (Hl : INR m < 2 * INR N) by (apply lt_INR in H2; rewrite mult_INR in H2; cbn [INR] in H2; lra). pose proof PI_RGT_0 as HP.
  apply Rgt_not_eq, sin_gt_0.
  - apply Rdiv_lt_0_compat; [apply Rmult_lt_0_compat; lra|lra].
  - apply (Rmult_lt_reg_r (2 * INR N)); [lra|]. unfold Rdiv. rewrite Rmult_assoc, Rinv_l by lra. rewrite Rmult_1_r. apply Rmult_lt_compat_l; lra.
Qed.
Lemma cos_row N m : (0 < m < 2 * N)%nat -> sumn N (fun j => cos (PI * INR m * (2 * INR j + 1) / (2 * INR N))) = 0.
Proof.
  intros H. assert (HN : 0 < INR N) by (apply lt_0_INR; lia). pose proof (sin_half m N H) as Hs. pose proof (cos_sum (PI * INR m / (2 * INR N)) N) as E.
  replace (PI * INR m / (2 * INR N) * (2 * INR N)) with (INR m * PI) in E by (field; lra). rewrite sin_INR_PI in E.
  rewrite (sumn_ext N _ (fun j => cos (PI * INR m * (2 * INR j + 1) / (2 * INR N)))) in E by (intros; f_equal; field; lra).
  apply Rmult_integral in E. destruct E as [E|E]; [exfalso; apply Hs; lra|exact E].
Qed.
Lemma dirichlet a n : 2 * sin a * sumn n (fun k => cos (2 * a * INR (S k))) = sin (a * (2 * INR n + 1)) - sin a.
Proof.
  induction n as [|n IH]; [cbn [sumn INR]; replace (a * (2 * 0 + 1)) with a by ring; ring|]. cbn [sumn]. rewrite Rmult_plus_distr_l, IH, S_INR.
  replace (a * (2 * INR n + 1)) with (2 * a * (INR n + 1) - a) by ring. replace (a * (2 * (INR n + 1) + 1)) with (2 * a * (INR n + 1) + a) by ring.
  rewrite sin_minus, sin_plus. ring.
Qed.
Lemma cos_INR_PI m : cos (INR m * PI) = if Nat.even m then 1 else -1.
Proof.
  induction m as [|m IH]; [cbn [INR Nat.even]; rewrite Rmult_0_l; apply cos_0|]. rewrite S_INR, Rmult_plus_distr_r, Rmult_1_l, neg_cos, IH, Nat.even_succ, <- Nat.negb_even.
  destruct (Nat.even m); cbn [negb]; lra.
Qed.
Lemma cos_col N m : (0 < m < 2 * N)%nat -> sumn (N - 1) (fun k => cos (PI * INR m * INR (S k) / INR N)) = if Nat.even m then -1 else 0.
Proof.
  intros H. assert (HN : 0 < INR N) by (apply lt_0_INR; lia). pose proof (sin_half m N H) as Hs. set (a := PI * INR m / (2 * INR N)) in *.
  pose proof (dirichlet a (N - 1)) as E. rewrite minus_INR in E by lia. change (INR 1) with 1 in E.
  replace (a * (2 * (INR N - 1) + 1)) with (INR m * PI - a) in E by (unfold a; field; lra). rewrite sin_minus, sin_INR_PI, cos_INR_PI in E.
  rewrite (sumn_ext (N - 1) _ (fun k => cos (PI * INR m * INR (S k) / INR N))) in E by (intros; f_equal; unfold a; field; lra).
  set (t := sumn (N - 1) _) in *. apply (Rmult_eq_reg_l (2 * sin a)); [|apply Rmult_integral_contrapositive_currified; [lra|exact Hs]].
  rewrite E. destruct (Nat.even m); lra.
Qed.

(** ** The transforms as one symmetric pair *)
Definition cw (N k : nat) : R := if Nat.eqb k 0 then / sqrt (INR N) else sqrt (2 / INR N).
Definition cm (N k j : nat) : R := cw N k * cos (PI * INR k * (2 * INR j + 1) / (2 * INR N)).
Lemma dct_cm N x k : (0 < N)%nat -> dct N x k = sumn N (fun j => cm N k j * x j).
Proof.
  intros HN. apply lt_0_INR in HN. unfold dct. rewrite <- !sumn_scal. apply sumn_ext. intros j _. unfold cm.
  assert (E : dct_w N k * 2 = cw N k); [|rewrite <- E; ring]. unfold dct_w, cw. replace 2 with (sqrt 4) at 2; [|replace 4 with (2 * 2) by ring; apply sqrt_square; lra].
  destruct (Nat.eqb k 0).
  - rewrite <- sqrt_mult; [|apply Rlt_le, Rdiv_lt_0_compat; lra|lra]. rewrite <- sqrt_inv. f_equal. field. lra.
  - rewrite <- sqrt_mult; [|apply Rlt_le, Rdiv_lt_0_compat; lra|lra]. f_equal. field. lra.
Qed.
Lemma idct_cm N y j : (0 < N)%nat -> idct N y j = sumn N (fun k => cm N k j * y k).
Proof.
  intros HN. pose proof (lt_0_INR _ HN) as HR. destruct N as [|n]; [lia|]. unfold idct. rewrite sumn_first, <- sumn_scal. replace (Datatypes.S n - 1)%nat with n by lia. f_equal.
  - unfold cm, cw. cbn [Nat.eqb]. change (INR 0) with 0. replace (PI * 0 * (2 * INR j + 1) / (2 * INR (Datatypes.S n))) with 0 by (field; lra). rewrite cos_0. unfold Rdiv. ring.
  - apply sumn_ext. intros k _. unfold cm, cw. cbn [Nat.eqb]. set (t := INR (Datatypes.S n)) in *. set (q := INR (Datatypes.S k)).
    replace (PI * (INR j + / 2) * q / t) with (PI * q * (2 * INR j + 1) / (2 * t)) by (field; lra). ring.
Qed.
Lemma cos_prod a b : cos a * cos b = / 2 * (cos (a - b) + cos (a + b)).
Proof. rewrite cos_minus, cos_plus. field. Qed.
Lemma cw_sq0 N : (0 < N)%nat -> cw N 0 * cw N 0 = / INR N.
Proof. intros H. apply lt_0_INR in H. unfold cw. cbn [Nat.eqb]. rewrite <- Rinv_mult, sqrt_sqrt by lra. reflexivity. Qed.
Lemma cw_sq N k : (0 < N)%nat -> (0 < k)%nat -> cw N k * cw N k = 2 / INR N.
Proof. intros H Hk. apply lt_0_INR in H. unfold cw. destruct (Nat.eqb_spec k 0); [lia|]. apply sqrt_sqrt. apply Rlt_le, Rdiv_lt_0_compat; lra. Qed.
Lemma cm_cols_le N j j' : (j' <= j < N)%nat -> sumn N (fun k => cm N k j * cm N k j') = if Nat.eqb j j' then 1 else 0.
Proof.
  intros [H1 H2]. assert (HN : (0 < N)%nat) by lia. pose proof (lt_0_INR _ HN) as HR. destruct N as [|n]; [lia|]. set (N := Datatypes.S n) in *.
  unfold N at 1. rewrite sumn_first. unfold cm at 1 2. replace (PI * INR 0 * (2 * INR j + 1) / (2 * INR N)) with 0 by (cbn [INR]; field; lra).
  replace (PI * INR 0 * (2 * INR j' + 1) / (2 * INR N)) with 0 by (cbn [INR]; field; lra). rewrite cos_0.
  replace (cw N 0 * 1 * (cw N 0 * 1)) with (cw N 0 * cw N 0) by ring. rewrite cw_sq0 by exact HN.
  rewrite (sumn_ext n _ (fun k => / INR N * (cos (PI * INR (j - j') * INR (Datatypes.S k) / INR N) + cos (PI * INR (j + j' + 1) * INR (Datatypes.S k) / INR N)))).
  2:{ intros k Hk. unfold cm. set (q := INR (Datatypes.S k)).
      transitivity (cw N (Datatypes.S k) * cw N (Datatypes.S k) * (cos (PI * q * (2 * INR j + 1) / (2 * INR N)) * cos (PI * q * (2 * INR j' + 1) / (2 * INR N)))); [ring|].
      rewrite cw_sq, cos_prod by lia.
      replace (PI * q * (2 * INR j + 1) / (2 * INR N) - PI * q * (2 * INR j' + 1) / (2 * INR N)) with (PI * INR (j - j') * q / INR N) by (rewrite minus_INR by lia; field; lra).
      replace (PI * q * (2 * INR j + 1) / (2 * INR N) + PI * q * (2 * INR j' + 1) / (2 * INR N)) with (PI * INR (j + j' + 1) * q / INR N) by (rewrite !plus_INR; cbn [INR]; field; lra).
      field. lra. }
  rewrite sumn_scal, sumn_plus. replace n with (N - 1)%nat by (unfold N; lia). rewrite (cos_col N (j + j' + 1)) by lia.
  destruct (Nat.eqb_spec j j') as [->|Hne].
  - replace (j' + j' + 1)%nat with (Datatypes.S (2 * j')) by lia. rewrite Nat.even_succ, <- Nat.negb_even, Nat.even_mul. cbn [Nat.even orb negb].
    rewrite Nat.sub_diag. cbn [INR]. rewrite (sumn_ext (N - 1) _ (fun _ => 1)) by (intros; rewrite <- cos_0; f_equal; field; lra). rewrite sumn_const, minus_INR by lia. cbn [INR]. field. lra.
  - rewrite (cos_col N (j - j')) by lia. assert (E : Nat.even (j + j' + 1) = negb (Nat.even (j - j'))).
    { replace (j + j' + 1)%nat with (Datatypes.S ((j - j') + 2 * j')) by lia. rewrite Nat.even_succ, <- Nat.negb_even, Nat.even_add, Nat.even_mul. cbn [Nat.even orb]. destruct (Nat.even (j - j')); reflexivity. }
    rewrite E. destruct (Nat.even (j - j')); cbn [negb]; field; lra.
Qed.
Lemma cm_cols N j j' : (j < N)%nat -> (j' < N)%nat -> sumn N (fun k => cm N k j * cm N k j') = if Nat.eqb j j' then 1 else 0.
Proof.
  intros H1 H2. destruct (Nat.le_gt_cases j' j) as [H|H]; [apply cm_cols_le; lia|].
  rewrite (sumn_ext N _ (fun k => cm N k j' * cm N k j)) by (intros; ring). rewrite Nat.eqb_sym. apply cm_cols_le. lia.
Qed.
Lemma cm_rows_le N k k' : (k' <= k < N)%nat -> sumn N (fun j => cm N k j * cm N k' j) = if Nat.eqb k k' then 1 else 0.
Proof.
  intros [H1 H2]. assert (HN : (0 < N)%nat) by lia. pose proof (lt_0_INR _ HN) as HR.
  rewrite (sumn_ext N _ (fun j => cw N k * cw N k' * (/ 2) * (cos (PI * INR (k - k') * (2 * INR j + 1) / (2 * INR N)) + cos (PI * INR (k + k') * (2 * INR j + 1) / (2 * INR N))))).
  2:{ intros j _. unfold cm. transitivity (cw N k * cw N k' * (cos (PI * INR k * (2 * INR j + 1) / (2 * INR N)) * cos (PI * INR k' * (2 * INR j + 1) / (2 * INR N)))); [ring|].
      rewrite cos_prod.
      replace (PI * INR k * (2 * INR j + 1) / (2 * INR N) - PI * INR k' * (2 * INR j + 1) / (2 * INR N)) with (PI * INR (k - k') * (2 * INR j + 1) / (2 * INR N)) by (rewrite minus_INR by lia; field; lra).
      replace (PI * INR k * (2 * INR j + 1) / (2 * INR N) + PI * INR k' * (2 * INR j + 1) / (2 * INR N)) with (PI * INR (k + k') * (2 * INR j + 1) / (2 * INR N)) by (rewrite plus_INR; field; lra).
      ring. }
  assert (Z : forall m, m = 0%nat -> sumn N (fun j => cos (PI * INR m * (2 * INR j + 1) / (2 * INR N))) = INR N).
  { intros m ->. cbn [INR]. rewrite (sumn_ext N _ (fun _ => 1)) by (intros; rewrite <- cos_0; f_equal; field; lra). rewrite sumn_const. ring. }
  rewrite sumn_scal, sumn_plus. destruct (Nat.eqb_spec k k') as [->|Hne].
  - rewrite Z by lia. destruct k' as [|q].
    + rewrite Z by lia. rewrite cw_sq0 by exact HN. field. lra.
    + rewrite cos_row by lia. rewrite cw_sq by lia. field. lra.
  - rewrite !cos_row by lia. ring.
Qed.
Lemma cm_rows N k k' : (k < N)%nat -> (k' < N)%nat -> sumn N (fun j => cm N k j * cm N k' j) = if Nat.eqb k k' then 1 else 0.
Proof.
  intros H1 H2. destruct (Nat.le_gt_cases k' k) as [H|H]; [apply cm_rows_le; lia|].
  rewrite (sumn_ext N _ (fun j => cm N k' j * cm N k j)) by (intros; ring). rewrite Nat.eqb_sym. apply cm_rows_le. lia.
Qed.
Lemma idct_dct N x j : (j < N)%nat -> idct N (dct N x) j = x j.
Proof.
  intros H. rewrite idct_cm by lia. rewrite (sumn_ext N _ (fun k => sumn N (fun i => cm N k j * cm N k i * x i))).
  2:{ intros k _. rewrite dct_cm by lia. rewrite <- sumn_scal. apply sumn_ext. intros; ring. }
  rewrite sumn_swap, (sumn_ext N _ (fun i => if Nat.eqb i j then x i else 0)); [apply sumn_delta; exact H|].
  intros i Hi. rewrite sumn_scal_r, cm_cols by assumption. rewrite Nat.eqb_sym. destruct (Nat.eqb i j); ring.
Qed.
Lemma dct_idct N y k : (k < N)%nat -> dct N (idct N y) k = y k.
Proof.
  intros H. rewrite dct_cm by lia. rewrite (sumn_ext N _ (fun j => sumn N (fun i => cm N k j * cm N i j * y i))).
  2:{ intros j _. rewrite idct_cm by lia. rewrite <- sumn_scal. apply sumn_ext. intros; ring. }
  rewrite sumn_swap, (sumn_ext N _ (fun i => if Nat.eqb i k then y i else 0)); [apply sumn_delta; exact H|].
  intros i Hi. rewrite sumn_scal_r, cm_rows by assumption. rewrite Nat.eqb_sym. destruct (Nat.eqb i k); ring.
Qed.

(** ** The second difference operator *)
Definition alpha1 (N k : nat) : R := -2 + 2 * cos (INR k * PI / INR N).
Lemma second_diff_cm N k j : (j < N)%nat -> second_diff N (cm N k) j = alpha1 N k * cm N k j.
Proof.
  intros H. assert (HN : 0 < INR N) by (apply lt_0_INR; lia). set (a := PI * INR k / (2 * INR N)).
  assert (F : forall i, cm N k i = cw N k * cos (a * (2 * INR i + 1))) by (intros i; unfold cm, a; do 2 f_equal; field; lra).
  assert (E : cos (a * (2 * INR j + 1) + 2 * a) + cos (a * (2 * INR j + 1) - 2 * a) = 2 * cos (2 * a) * cos (a * (2 * INR j + 1))) by (rewrite cos_plus, cos_minus; ring).
  assert (A : alpha1 N k = -2 + 2 * cos (2 * a)) by (unfold alpha1, a; do 3 f_equal; field; lra).
  unfold second_diff.
  assert (U : (if Nat.ltb (S j) N then cm N k (S j) - cm N k j else 0) = cw N k * (cos (a * (2 * INR j + 1) + 2 * a) - cos (a * (2 * INR j + 1)))).
  { destruct (Nat.ltb_spec (S j) N) as [|Hb].
    - rewrite !F, S_INR. replace (a * (2 * (INR j + 1) + 1)) with (a * (2 * INR j + 1) + 2 * a) by ring. ring.
    - assert (EN : INR N = INR j + 1) by (rewrite <- S_INR; f_equal; lia).
      replace (a * (2 * INR j + 1) + 2 * a) with (INR k * PI + a) by (unfold a; rewrite EN; field; lra).
      replace (a * (2 * INR j + 1)) with (INR k * PI - a) by (unfold a; rewrite EN; field; lra). rewrite cos_plus, cos_minus, sin_INR_PI. ring. }
  assert (V : (if Nat.eqb j 0 then 0 else cm N k (j - 1) - cm N k j) = cw N k * (cos (a * (2 * INR j + 1) - 2 * a) - cos (a * (2 * INR j + 1)))).
  { destruct (Nat.eqb_spec j 0) as [->|Hj].
    - cbn [INR]. replace (a * (2 * 0 + 1) - 2 * a) with (- a) by ring. replace (a * (2 * 0 + 1)) with a by ring. rewrite cos_neg. ring.
    - rewrite !F, minus_INR by lia. cbn [INR]. replace (a * (2 * (INR j - 1) + 1)) with (a * (2 * INR j + 1) - 2 * a) by ring. ring. }
  rewrite U, V, A, F. replace (cw N k * (cos (a * (2 * INR j + 1) + 2 * a) - cos (a * (2 * INR j + 1))) + cw N k * (cos (a * (2 * INR j + 1) - 2 * a) - cos (a * (2 * INR j + 1))))
    with (cw N k * (cos (a * (2 * INR j + 1) + 2 * a) + cos (a * (2 * INR j + 1) - 2 * a) - 2 * cos (a * (2 * INR j + 1)))) by ring. rewrite E. ring.
Qed.
Lemma second_diff_ext N x y j : (j < N)%nat -> (forall i, (i < N)%nat -> x i = y i) -> second_diff N x j = second_diff N y j.
Proof.
  intros H E. unfold second_diff. destruct (Nat.ltb_spec (S j) N) as [K|K]; rewrite ?(E (S j) K); rewrite (E j H), (E (j - 1)%nat) by lia; reflexivity.
Qed.
Lemma second_diff_sum N (n : nat) (w : nat -> R) (f : nat -> nat -> R) j : second_diff N (fun i => sumn n (fun k => f k i * w k)) j = sumn n (fun k => second_diff N (f k) j * w k).
Proof.
  unfold second_diff. destruct (Nat.ltb (S j) N), (Nat.eqb j 0); rewrite <- ?sumn_minus, ?Rplus_0_r, ?Rplus_0_l.
  - apply sumn_ext. intros; ring.
  - rewrite <- sumn_plus. apply sumn_ext. intros; ring.
  - symmetry. apply sumn_0. intros; ring.
  - apply sumn_ext. intros; ring.
Qed.
Lemma second_diff_dct N x j : (j < N)%nat -> idct N (fun k => alpha1 N k * dct N x k) j = second_diff N x j.
Proof.
  intros H. rewrite idct_cm by lia. rewrite (second_diff_ext N x (fun i => sumn N (fun k => cm N k i * dct N x k)) j H).
  2:{ intros i Hi. rewrite <- idct_cm by lia. symmetry. apply idct_dct. exact Hi. }
  rewrite second_diff_sum. apply sumn_ext. intros k _. rewrite second_diff_cm by exact H. ring.
Qed.
Lemma second_diff_sym N x y : sumn N (fun j => second_diff N x j * y j) = sumn N (fun j => x j * second_diff N y j).
Proof.
  assert (Q : forall x y, sumn N (fun j => second_diff N x j * y j) = - sumn (N - 1) (fun j => (x (S j) - x j) * (y (S j) - y j))).
  { clear. intros x y. destruct N as [|n]; [cbn [Nat.sub sumn]; ring|]. replace (S n - 1)%nat with n by lia.
    rewrite (sumn_ext (S n) _ (fun j => (if Nat.ltb (S j) (S n) then x (S j) - x j else 0) * y j + (if Nat.eqb j 0 then 0 else x (j - 1)%nat - x j) * y j)) by (intros; unfold second_diff; ring).
    rewrite sumn_plus. cbn [sumn]. rewrite (proj2 (Nat.ltb_ge (S n) (S n))) by lia.
    rewrite (sumn_ext n _ (fun j => (x (S j) - x j) * y j)) by (intros j Hj; rewrite (proj2 (Nat.ltb_lt (S j) (S n))) by lia; reflexivity).
    change (sumn n (fun i => (if Nat.eqb i 0 then 0 else x (i - 1)%nat - x i) * y i) + (if Nat.eqb n 0 then 0 else x (n - 1)%nat - x n) * y n)
      with (sumn (S n) (fun i => (if Nat.eqb i 0 then 0 else x (i - 1)%nat - x i) * y i)).
    rewrite sumn_first. cbn [Nat.eqb]. rewrite (sumn_ext n (fun i => (x (S i - 1)%nat - x (S i)) * y (S i)) (fun i => (x i - x (S i)) * y (S i))) by (intros i _; replace (S i - 1)%nat with i by lia; reflexivity).
    rewrite !Rmult_0_l, Rplus_0_r, Rplus_0_l, <- sumn_opp, <- sumn_plus. apply sumn_ext. intros; ring. }
  rewrite Q. rewrite (sumn_ext N (fun j => x j * second_diff N y j) (fun j => second_diff N y j * x j)) by (intros; ring). rewrite Q. f_equal. apply sumn_ext. intros; ring.
Qed.

(** ** Several axes *)
Section axes.
Context (s : nat -> nat) (all : list nat).
Definition rng (i : index) : Prop := on_slice s all (fun _ => O) i.
Lemma upd_comm (i : index) a b j k : a <> b -> upd (upd i a j) b k = upd (upd i b k) a j.
Proof. intros H. extensionality c. unfold upd. destruct (Nat.eqb_spec c a), (Nat.eqb_spec c b); subst; congruence. Qed.
Lemma upd_upd (i : index) a j k : upd (upd i a j) a k = upd i a k.
Proof. extensionality c. unfold upd. destruct (Nat.eqb c a); reflexivity. Qed.
Lemma upd_id (i : index) a : upd i a (i a) = i.
Proof. extensionality c. unfold upd. destruct (Nat.eqb_spec c a); congruence. Qed.
Lemma rng_upd i a j : In a all -> rng i -> (j < s a)%nat -> rng (upd i a j).
Proof.
  intros Ha H Hj. split; intros ax Hax; unfold upd; destruct (Nat.eqb_spec ax a); subst; try contradiction; [exact Hj|apply H; exact Hax|apply H; exact Hax].
Qed.
Definition eqr (x y : index -> R) : Prop := forall i, rng i -> x i = y i.
Lemma dct_ext N x y k : (0 < N)%nat -> (forall j, (j < N)%nat -> x j = y j) -> dct N x k = dct N y k.
Proof. intros HN H. rewrite !dct_cm by exact HN. apply sumn_ext. intros j Hj. rewrite (H j Hj). reflexivity. Qed.
Lemma idct_ext N x y k : (0 < N)%nat -> (forall j, (j < N)%nat -> x j = y j) -> idct N x k = idct N y k.
Proof. intros HN H. rewrite !idct_cm by exact HN. apply sumn_ext. intros j Hj. rewrite (H j Hj). reflexivity. Qed.
Lemma dct_ax_ext a x y : In a all -> eqr x y -> eqr (dct_ax s a x) (dct_ax s a y).
Proof. intros Ha H i Hi. pose proof (proj1 Hi a Ha). apply dct_ext; [lia|]. intros j Hj. apply H. apply rng_upd; assumption. Qed.
Lemma idct_ax_ext a x y : In a all -> eqr x y -> eqr (idct_ax s a x) (idct_ax s a y).
Proof. intros Ha H i Hi. pose proof (proj1 Hi a Ha). apply idct_ext; [lia|]. intros j Hj. apply H. apply rng_upd; assumption. Qed.
Lemma dctii_ext axes : incl axes all -> forall x y, eqr x y -> eqr (dctii s axes x) (dctii s axes y).
Proof.
  induction axes as [|a r IH]; intros Hi x y H; [exact H|]. unfold dctii in *. cbn [fold_left]. apply IH; [intros b Hb; apply Hi; right; exact Hb|].
  apply dct_ax_ext; [apply Hi; left; reflexivity|exact H].
Qed.
Lemma idctii_cons a r x : idctii s (a :: r) x = idct_ax s a (idctii s r x).
Proof. unfold idctii. cbn [rev]. rewrite fold_left_app. reflexivity. Qed.
Lemma dctii_cons a r x : dctii s (a :: r) x = dctii s r (dct_ax s a x).
Proof. reflexivity. Qed.
Lemma idctii_ext axes : incl axes all -> forall x y, eqr x y -> eqr (idctii s axes x) (idctii s axes y).
Proof.
  induction axes as [|a r IH]; intros Hi x y H; [exact H|]. rewrite !idctii_cons. apply idct_ax_ext; [apply Hi; left; reflexivity|].
  apply IH; [intros b Hb; apply Hi; right; exact Hb|exact H].
Qed.
Lemma idct_dct_ax a x : In a all -> eqr (idct_ax s a (dct_ax s a x)) x.
Proof.
  intros Ha i Hi. unfold idct_ax, dct_ax. rewrite (idct_ext (s a) _ (dct (s a) (fun j => x (upd i a j)))).
  - rewrite idct_dct by (apply (proj1 Hi); exact Ha). rewrite upd_id. reflexivity.
  - pose proof (proj1 Hi a Ha). lia.
  - intros k Hk. rewrite upd_same. f_equal. extensionality j. rewrite upd_upd. reflexivity.
Qed.
Lemma dct_idct_ax a x : In a all -> eqr (dct_ax s a (idct_ax s a x)) x.
Proof.
  intros Ha i Hi. unfold idct_ax, dct_ax. rewrite (dct_ext (s a) _ (idct (s a) (fun j => x (upd i a j)))).
  - rewrite dct_idct by (apply (proj1 Hi); exact Ha). rewrite upd_id. reflexivity.
  - pose proof (proj1 Hi a Ha). lia.
  - intros k Hk. rewrite upd_same. f_equal. extensionality j. rewrite upd_upd. reflexivity.
Qed.
Lemma roundtrip axes : incl axes all -> forall x, eqr (idctii s axes (dctii s axes x)) x.
Proof.
  induction axes as [|a r IH]; intros Hi x; [intros i _; reflexivity|]. rewrite idctii_cons, dctii_cons. intros i Ri.
  assert (Ha : In a all) by (apply Hi; left; reflexivity). rewrite (idct_ax_ext a _ (dct_ax s a x) Ha) by (try apply IH; try exact Ri; intros b Hb; apply Hi; right; exact Hb).
  apply idct_dct_ax; assumption.
Qed.
Lemma roundtrip' axes : incl axes all -> forall x, eqr (dctii s axes (idctii s axes x)) x.
Proof.
  induction axes as [|a r IH]; intros Hi x; [intros i _; reflexivity|]. rewrite idctii_cons, dctii_cons. intros i Ri.
  assert (Ha : In a all) by (apply Hi; left; reflexivity). assert (Hr : incl r all) by (intros b Hb; apply Hi; right; exact Hb).
  rewrite (dctii_ext r Hr _ (idctii s r x) (dct_idct_ax a _ Ha) i Ri). apply IH; assumption.
Qed.
(** A factor that does not vary along the transformed axes. *)
Lemma idctii_factor r (w : index -> R) x : (forall i a j, In a r -> w (upd i a j) = w i) -> forall i, idctii s r (fun i => w i * x i) i = w i * idctii s r x i.
Proof.
  induction r as [|a r IH]; intros Hw i; [reflexivity|]. rewrite !idctii_cons. unfold idct_ax.
  assert (E : idctii s r (fun i => w i * x i) = fun i => w i * idctii s r x i) by (extensionality k; apply IH; intros; apply Hw; right; assumption). rewrite E.
  unfold idct. rewrite !Hw by (left; reflexivity).
  rewrite (sumn_ext _ (fun k => w (upd i a (S k)) * idctii s r x (upd i a (S k)) * cos (PI * (INR (i a) + / 2) * INR (S k) / INR (s a))) (fun k => w i * (idctii s r x (upd i a (S k)) * cos (PI * (INR (i a) + / 2) * INR (S k) / INR (s a)))))
    by (intros; rewrite Hw by (left; reflexivity); ring). rewrite sumn_scal. unfold Rdiv. ring.
Qed.
Lemma along_eq a x p : along s a x p = second_diff (s a) (fun j => x (upd p a j)) (p a). Proof. reflexivity. Qed.
Lemma along_ext a x y : In a all -> eqr x y -> eqr (along s a x) (along s a y).
Proof. intros Ha H i Hi. rewrite !along_eq. apply second_diff_ext; [apply (proj1 Hi); exact Ha|]. intros j Hj. apply H. apply rng_upd; assumption. Qed.
Lemma along_dct a b x i : (0 < s a)%nat -> a <> b -> along s b (dct_ax s a x) i = dct_ax s a (along s b x) i.
Proof.
  intros Hp Hne. rewrite along_eq. unfold dct_ax at 2. rewrite dct_cm by exact Hp.
  assert (E : (fun j => dct_ax s a x (upd i b j)) = fun j => sumn (s a) (fun k => x (upd (upd i a k) b j) * cm (s a) (i a) k)).
  { extensionality j. unfold dct_ax. rewrite dct_cm by exact Hp. rewrite upd_other by exact Hne. apply sumn_ext. intros k _. rewrite (upd_comm i b a j k) by congruence. ring. }
  rewrite E, (second_diff_sum (s b) (s a) (cm (s a) (i a)) (fun k j => x (upd (upd i a k) b j))). apply sumn_ext. intros k _. rewrite along_eq, upd_other by congruence. ring.
Qed.
Lemma idctii_along axes : incl axes all -> NoDup axes -> forall b x, In b axes ->
  eqr (idctii s axes (fun i => alpha1 (s b) (i b) * dctii s axes x i)) (along s b x).
Proof.
  induction axes as [|a r IH]; intros Hi ND b x Hb; [destruct Hb|]. inversion ND as [|? ? N1 N2]; subst. rewrite idctii_cons.
  assert (Ha : In a all) by (apply Hi; left; reflexivity). assert (Hr : incl r all) by (intros c Hc; apply Hi; right; exact Hc).
  destruct (Nat.eq_dec a b) as [->|Hne].
  - intros i Ri. pose proof (proj1 Ri b Ha) as Rb. rewrite along_eq, <- second_diff_dct by exact Rb. unfold idct_ax at 1. apply idct_ext; [lia|]. intros j Hj.
    rewrite (idctii_factor r (fun i => alpha1 (s b) (i b))).
    + rewrite upd_same. f_equal. rewrite dctii_cons, (roundtrip r Hr) by (apply rng_upd; assumption). unfold dct_ax. rewrite upd_same. f_equal. extensionality k. rewrite upd_upd. reflexivity.
    + intros p c k Hc. rewrite upd_other; [reflexivity|]. intros <-. contradiction.
  - destruct Hb as [->|Hb]; [congruence|]. intros i Ri. pose proof (proj1 Ri a Ha) as Rp. rewrite dctii_cons.
    rewrite (idct_ax_ext a _ (along s b (dct_ax s a x)) Ha (IH Hr N2 b (dct_ax s a x) Hb) i Ri).
    assert (E : eqr (along s b (dct_ax s a x)) (dct_ax s a (along s b x))) by (intros p _; apply along_dct; [lia|exact Hne]).
    rewrite (idct_ax_ext a _ _ Ha E i Ri). apply idct_dct_ax; assumption.
Qed.
Lemma dct_ax_lin a u x v y i : dct_ax s a (fun i => u * x i + v * y i) i = u * dct_ax s a x i + v * dct_ax s a y i.
Proof.
  unfold dct_ax, dct. rewrite (sumn_ext (s a) _ (fun j => u * (x (upd i a j) * cos (PI * INR (i a) * (2 * INR j + 1) / (2 * INR (s a)))) + v * (y (upd i a j) * cos (PI * INR (i a) * (2 * INR j + 1) / (2 * INR (s a)))))) by (intros; ring).
  rewrite sumn_plus, !sumn_scal. ring.
Qed.
Lemma idct_ax_lin a u x v y i : idct_ax s a (fun i => u * x i + v * y i) i = u * idct_ax s a x i + v * idct_ax s a y i.
Proof.
  unfold idct_ax, idct. rewrite (sumn_ext (s a - 1) _ (fun k => u * (x (upd i a (S k)) * cos (PI * (INR (i a) + / 2) * INR (S k) / INR (s a))) + v * (y (upd i a (S k)) * cos (PI * (INR (i a) + / 2) * INR (S k) / INR (s a))))) by (intros; ring).
  rewrite sumn_plus, !sumn_scal. unfold Rdiv. ring.
Qed.
Lemma idctii_lin axes u x v y : idctii s axes (fun i => u * x i + v * y i) = fun i => u * idctii s axes x i + v * idctii s axes y i.
Proof. induction axes as [|a r IH]; [reflexivity|]. rewrite !idctii_cons, IH. extensionality i. apply idct_ax_lin. Qed.
Lemma dctii_lin axes : forall u x v y, dctii s axes (fun i => u * x i + v * y i) = fun i => u * dctii s axes x i + v * dctii s axes y i.
Proof.
  induction axes as [|a r IH]; intros u x v y; [reflexivity|]. rewrite !dctii_cons.
  replace (dct_ax s a (fun i => u * x i + v * y i)) with (fun i => u * dct_ax s a x i + v * dct_ax s a y i) by (extensionality i; symmetry; apply dct_ax_lin). apply IH.
Qed.
Lemma Alpha_sum axes i : Alpha s axes i = fold_right (fun ax t => alpha1 (s ax) (i ax) + t) 0 axes.
Proof.
  unfold Alpha. assert (G : forall l a, fold_left (fun a ax => a + (-2 + 2 * cos (INR (i ax) * PI / INR (s ax)))) l a = a + fold_right (fun ax t => alpha1 (s ax) (i ax) + t) 0 l).
  { induction l as [|b l IH]; intros a; cbn [fold_left fold_right]; [ring|]. rewrite IH. unfold alpha1. ring. }
  rewrite G. ring.
Qed.
Lemma laplace_dct axes x : incl axes all -> NoDup axes -> eqr (idctii s axes (fun i => Alpha s axes i * dctii s axes x i)) (laplace s axes x).
Proof.
  intros Hi ND i Ri. assert (G : forall l, incl l axes -> idctii s axes (fun i => fold_right (fun ax t => alpha1 (s ax) (i ax) + t) 0 l * dctii s axes x i) i = fold_right (fun ax t => along s ax x i + t) 0 l).
  { induction l as [|b l IH]; intros Hl; cbn [fold_right].
    - replace (fun i => 0 * dctii s axes x i) with (fun i => 0 * dctii s axes x i + 0 * dctii s axes x i) by (extensionality k; ring). rewrite idctii_lin. ring.
    - rewrite <- IH by (intros c Hc; apply Hl; right; exact Hc). rewrite <- (idctii_along axes Hi ND b x (Hl b (or_introl eq_refl)) i Ri).
      rewrite <- (Rmult_1_l (idctii s axes (fun i => alpha1 (s b) (i b) * dctii s axes x i) i)). rewrite <- (Rmult_1_l (idctii s axes (fun i => fold_right (fun ax t => alpha1 (s ax) (i ax) + t) 0 l * dctii s axes x i) i)).
      pose proof (f_equal (fun F => F i) (idctii_lin axes 1 (fun i => alpha1 (s b) (i b) * dctii s axes x i) 1 (fun i => fold_right (fun ax t => alpha1 (s ax) (i ax) + t) 0 l * dctii s axes x i))) as Q. cbv beta in Q.
      rewrite <- Q. f_equal. extensionality k. ring. }
  unfold laplace. rewrite <- (G axes (incl_refl axes)). f_equal. extensionality k. rewrite Alpha_sum. reflexivity.
Qed.

(** ** Symmetry *)
Lemma total_sum L n (f : nat -> index -> R) : forall b, total s L (fun p => sumn n (fun j => f j p)) b = sumn n (fun j => total s L (f j) b).
Proof. induction L as [|a r IH]; intros b; cbn [total]; [reflexivity|]. rewrite sumn_swap. apply sumn_ext. intros j _. apply IH. Qed.
Lemma along_sym L a x y : NoDup L -> In a L -> forall b, total s L (fun p => along s a x p * y p) b = total s L (fun p => x p * along s a y p) b.
Proof.
  induction L as [|h r IH]; intros ND Ha b; [destruct Ha|]. inversion ND as [|? ? N1 N2]; subst. cbn [total]. destruct (Nat.eq_dec h a) as [->|Hne].
  - assert (M : forall F : index -> R, sumn (s a) (fun j => total s r F (set_at b a j)) = total s r (fun p => sumn (s a) (fun j => F (upd p a j))) b).
    { intros F. rewrite total_sum. apply sumn_ext. intros j _. symmetry. apply (total_move s r (fun p => upd p a j) F). intros c k p Hc. apply (upd_comm p c a k j). intros ->. contradiction. }
    refine (eq_trans (M (fun p => along s a x p * y p)) (eq_trans _ (eq_sym (M (fun p => x p * along s a y p))))). f_equal. extensionality p.
    rewrite (sumn_ext (s a) _ (fun j => second_diff (s a) (fun t => x (upd p a t)) j * y (upd p a j))).
    2:{ intros j _. rewrite along_eq, upd_same. do 2 f_equal. extensionality t. rewrite upd_upd. reflexivity. }
    rewrite (second_diff_sym (s a) (fun t => x (upd p a t)) (fun t => y (upd p a t))). apply sumn_ext. intros j _. rewrite along_eq, upd_same. do 2 f_equal. extensionality t. rewrite upd_upd. reflexivity.
  - destruct Ha as [->|Ha]; [congruence|]. apply sumn_ext. intros j _. apply IH; assumption.
Qed.
Lemma total_add L (f g : index -> R) b : total s L (fun p => f p + g p) b = total s L f b + total s L g b.
Proof.
  pose proof (total_lin s L 1 f 1 g b) as Q. refine (eq_trans _ (eq_trans Q _)); [f_equal; extensionality p; ring|ring].
Qed.
Lemma laplace_sym axes x y b : NoDup all -> incl axes all -> total s all (fun p => laplace s axes x p * y p) b = total s all (fun p => x p * laplace s axes y p) b.
Proof.
  intros ND. unfold laplace. induction axes as [|a r IH]; intros Hi; cbn [fold_right].
  - f_equal. extensionality p. ring.
  - set (Fx := fun p : index => fold_right (fun ax t => along s ax x p + t) 0 r). set (Fy := fun p : index => fold_right (fun ax t => along s ax y p + t) 0 r).
    transitivity (total s all (fun p : index => along s a x p * y p + Fx p * y p) b); [f_equal; extensionality p; unfold Fx; ring|].
    transitivity (total s all (fun p : index => x p * along s a y p + x p * Fy p) b); [|f_equal; extensionality p; unfold Fy; ring].
    refine (eq_trans (total_add all (fun p => along s a x p * y p) (fun p => Fx p * y p) b) (eq_trans _ (eq_sym (total_add all (fun p => x p * along s a y p) (fun p => x p * Fy p) b)))).
    f_equal; [apply along_sym; [exact ND|apply Hi; left; reflexivity]|apply IH; intros c Hc; apply Hi; right; exact Hc].
Qed.
Lemma laplace_lin axes u x v y p : laplace s axes (fun q => u * x q + v * y q) p = u * laplace s axes x p + v * laplace s axes y p.
Proof.
  unfold laplace. induction axes as [|a r IH]; cbn [fold_right]; [ring|]. rewrite IH. unfold along, second_diff. destruct (Nat.ltb _ _), (Nat.eqb _ _); ring.
Qed.
Lemma laplace_ext axes x y : incl axes all -> eqr x y -> eqr (laplace s axes x) (laplace s axes y).
Proof.
  intros Hi H i Ri. unfold laplace. induction axes as [|a r IH]; cbn [fold_right]; [reflexivity|].
  rewrite IH by (intros c Hc; apply Hi; right; exact Hc). f_equal. apply along_ext; [apply Hi; left; reflexivity|exact H|exact Ri].
Qed.
End axes.
