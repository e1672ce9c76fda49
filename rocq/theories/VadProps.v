Require Import Reals Arith Bool Lia Lra Psatz.
Require Import Verif.RVec Verif.Cplx Verif.CproxModel Verif.VadModel Verif.VadSpec.
Local Open Scope R_scope.

(** ** rrs *)
Lemma Rabs_m1 : Rabs (-1) = 1. Proof. rewrite Rabs_left; lra. Qed.
Lemma nrm_vsub_sym n x y : nrm n (vsub x y) = nrm n (vsub y x).
Proof. unfold nrm. f_equal. apply sumn_ext. intros. unfold vsub. ring. Qed.
Lemma nrm_vsub_le n x y : nrm n (vsub x y) <= nrm n x + nrm n y.
Proof.
  rewrite (nrm_ext n (vsub x y) (vadd x (vscal (-1) y))) by (intros; unfold vsub, vadd, vscal; ring).
  eapply Rle_trans; [apply nrm_triang|]. rewrite nrm_scal. rewrite Rabs_m1. lra.
Qed.
Lemma nrm_back n x y : nrm n x <= nrm n (vsub x y) + nrm n y.
Proof.
  rewrite (nrm_ext n x (vadd (vsub x y) y)) at 1 by (intros; unfold vsub, vadd; ring). apply nrm_triang.
Qed.
Lemma nrm_zero n x : (forall i, (i < n)%nat -> x i = 0) -> nrm n x = 0.
Proof. intros H. rewrite (nrm_ext n x (fun _ => 0) H). unfold nrm. rewrite nrm2_zero. apply sqrt_0. Qed.
(** The relative residual lies between 0 and 2, is 0 exactly for equal arrays, and is symmetric. *)
Theorem C101_rrs_range (n : nat) (ax b : nat -> R) :
  0 <= rrs n ax b <= 2 /\ (rrs n ax b = 0 <-> forall i, (i < n)%nat -> ax i = b i) /\ rrs n ax b = rrs n b ax.
Proof.
  pose proof (nrm_nonneg n ax). pose proof (nrm_nonneg n b). pose proof (nrm_nonneg n (vsub ax b)).
  pose proof (Rmax_l (nrm n ax) (nrm n b)). pose proof (Rmax_r (nrm n ax) (nrm n b)). pose proof (nrm_vsub_le n ax b).
  unfold rrs. cbv zeta. rewrite (Rmax_comm (nrm n b)). set (nm := Rmax _ _) in *. destruct (Req_EM_T nm 0) as [Z|N].
  - split; [lra|]. split; [|reflexivity]. split; [|reflexivity]. intros _ i Hi.
    rewrite (nrm_0 n ax) by (try lra; exact Hi). rewrite (nrm_0 n b) by (try lra; exact Hi). reflexivity.
  - assert (P : 0 < nm) by lra. assert (Q : 0 < / nm) by (apply Rinv_0_lt_compat; exact P).
    split; [|split].
    + split; [unfold Rdiv; nra|]. apply (Rmult_le_reg_r nm); [exact P|]. unfold Rdiv. rewrite Rmult_assoc, Rinv_l by lra. lra.
    + split.
      * intros E i Hi. assert (Z : nrm n (vsub ax b) = 0).
        { apply (Rmult_eq_reg_r (/ nm)); [|lra]. rewrite Rmult_0_l. exact E. }
        pose proof (nrm_0 n _ Z i Hi) as K. unfold vsub in K. lra.
      * intros E. rewrite (nrm_zero n (vsub ax b)); [unfold Rdiv; ring|]. intros i Hi. unfold vsub. rewrite E by exact Hi. ring.
    + rewrite nrm_vsub_sym. reflexivity.
Qed.
Print Assumptions C101_rrs_range.
(** What it says about the usual relative residual ||ax - b|| / ||b||: rrs is never larger, and the relative residual is at most
    rrs / (1 - rrs) when rrs < 1. *)
Theorem C101_rrs_relative (n : nat) (ax b : nat -> R) :
  rrs n ax b * nrm n b <= nrm n (vsub ax b) /\
  (rrs n ax b < 1 -> nrm n (vsub ax b) <= rrs n ax b / (1 - rrs n ax b) * nrm n b).
Proof.
  pose proof (nrm_nonneg n ax). pose proof (nrm_nonneg n b). pose proof (nrm_nonneg n (vsub ax b)). pose proof (nrm_back n ax b).
  pose proof (Rmax_l (nrm n ax) (nrm n b)). pose proof (Rmax_r (nrm n ax) (nrm n b)). pose proof (nrm_vsub_le n ax b).
  assert (M : Rmax (nrm n ax) (nrm n b) <= nrm n (vsub ax b) + nrm n b) by (apply Rmax_lub; lra).
  unfold rrs. cbv zeta. set (nm := Rmax _ _) in *. destruct (Req_EM_T nm 0) as [Z|N].
  - split; [lra|]. intros _. unfold Rdiv. rewrite Rmult_0_l. lra.
  - assert (P : 0 < nm) by lra. set (r := nrm n (vsub ax b) / nm). assert (E : r * nm = nrm n (vsub ax b)) by (unfold r; field; lra).
    assert (R0 : 0 <= r) by (unfold r, Rdiv; apply Rmult_le_pos; [lra|left; apply Rinv_0_lt_compat; exact P]). split; [nra|].
    intros Hr1. rewrite <- E. apply (Rmult_le_reg_r (1 - r)); [lra|]. unfold Rdiv. 
    replace (r * / (1 - r) * nrm n b * (1 - r)) with (r * nrm n b) by (field; lra). nra.
Qed.
Print Assumptions C101_rrs_relative.

(** ** valid_adjoint *)
Lemma cabs_nonneg z : 0 <= cabs z. Proof. apply sqrt_pos. Qed.
Lemma cabs_zero z : cabs z = 0 <-> z = c0.
Proof.
  split; [intros H; apply cabs2_0; apply sqrt_eq_0; [apply cabs2_nonneg|exact H]|]. intros ->. unfold cabs, cabs2. simpl.
  replace (0 * 0 + 0 * 0) with 0 by ring. apply sqrt_0.
Qed.
Lemma cabs_csub_same z : cabs (csub z z) = 0.
Proof. apply cabs_zero. ceq; ring. Qed.
Lemma cabs_scal r z : cabs (cscal r z) = Rabs r * cabs z.
Proof.
  unfold cabs. replace (cabs2 (cscal r z)) with (r ^ 2 * cabs2 z) by (unfold cabs2, cscal; simpl; ring).
  rewrite sqrt_mult_alt by apply pow2_ge_0. f_equal. rewrite <- sqrt_Rsqr_abs. f_equal. unfold Rsqr. ring.
Qed.
Lemma den_zero a b : Rmax (cabs a) (cabs b) = 0 <-> a = c0 /\ b = c0.
Proof.
  pose proof (cabs_nonneg a). pose proof (cabs_nonneg b). pose proof (Rmax_l (cabs a) (cabs b)). pose proof (Rmax_r (cabs a) (cabs b)). split.
  - intros H3. split; apply cabs_zero; lra.
  - intros [-> ->]. replace (cabs c0) with 0 by (symmetry; apply cabs_zero; reflexivity). apply Rmax_left. lra.
Qed.
Lemma npdot_rows m n M x0 x1 : npdot m x1 (apply_matrix n M x0) = form m n M x0 x1.
Proof.
  unfold npdot, apply_matrix, form. apply csumn_ext. intros i _. rewrite <- csumn_scal. apply csumn_ext. intros j _. ceq; ring.
Qed.
Lemma npdot_cols m n N x0 x1 : npdot n x0 (apply_matrix m N x1) = form m n (fun i j => N j i) x0 x1.
Proof.
  unfold npdot, apply_matrix, form. rewrite csumn_swap. apply csumn_ext. intros i _. rewrite <- csumn_scal. apply csumn_ext. intros j _. ceq; ring.
Qed.
Lemma form_ext m n M N x0 x1 : (forall i j, (i < m)%nat -> (j < n)%nat -> M i j = N i j) -> form m n M x0 x1 = form m n N x0 x1.
Proof. intros H. apply csumn_ext. intros i Hi. apply csumn_ext. intros j Hj. rewrite H by assumption. reflexivity. Qed.
Definition unit_vec (k : nat) (i : nat) : R := if Nat.eqb i k then 1 else 0.
Lemma form_unit m n M a b : (a < m)%nat -> (b < n)%nat -> form m n M (unit_vec b) (unit_vec a) = M a b.
Proof.
  intros Ha Hb. unfold form. rewrite <- (csumn_delta m a (fun i => M i b) Ha). apply csumn_ext. intros i _. unfold unit_vec at 1.
  destruct (Nat.eqb i a).
  - rewrite <- (csumn_delta n b (fun j => M i j) Hb). apply csumn_ext. intros j _. unfold unit_vec. destruct (Nat.eqb j b); ceq; ring.
  - apply csumn_0. intros j _. ceq; ring.
Qed.

(** The exact error of a draw is 0, or 0/0, for every draw if and only if the matrices are transposes of one another. *)
Theorem C101_adjoint_exact (m n : nat) (M N : cmatrix) :
  transposed m n M N <->
  (forall x0 x1, adj_err n m (apply_matrix n M) (apply_matrix m N) x0 x1 = Number 0 \/
                 adj_err n m (apply_matrix n M) (apply_matrix m N) x0 x1 = NaN).
Proof.
  unfold adj_err. cbv zeta. split.
  - intros H x0 x1. rewrite npdot_rows, npdot_cols, (form_ext m n (fun i j => N j i) M) by (intros; apply H; assumption).
    destruct (Req_EM_T _ 0); [right; reflexivity|left]. rewrite cabs_csub_same. f_equal. unfold Rdiv. ring.
  - intros H i j Hi Hj. specialize (H (unit_vec j) (unit_vec i)). rewrite npdot_rows, npdot_cols, !form_unit in H by assumption.
    destruct (Req_EM_T (Rmax (cabs (M i j)) (cabs (N j i))) 0) as [Z|Nz].
    + apply den_zero in Z. destruct Z as [-> ->]. reflexivity.
    + destruct H as [H|H]; [|discriminate]. injection H as H. assert (K : cabs (csub (M i j) (N j i)) = 0).
      { apply (Rmult_eq_reg_r (/ Rmax (cabs (M i j)) (cabs (N j i)))); [rewrite Rmult_0_l; exact H|]. apply Rinv_neq_0_compat. exact Nz. }
      apply cabs_zero in K. destruct (M i j) as [a b], (N j i) as [c d]. unfold csub, cadd, copp, c0, re, im in K. simpl in K. injection K as K1 K2.
      f_equal; lra.
Qed.
Print Assumptions C101_adjoint_exact.
(** Transposes are accepted for every draw with x1 . A x0 <> 0 and every positive tolerance, and for no other draw. *)
Theorem C101_adjoint_accepted (m n : nat) (M N : cmatrix) (eps : R) (x0 x1 : nat -> R) : transposed m n M N -> 0 < eps ->
  (valid_adjoint n m (apply_matrix n M) (apply_matrix m N) eps x0 x1 = true <-> form m n M x0 x1 <> c0).
Proof.
  intros H He. unfold valid_adjoint, adj_err. cbv zeta. rewrite npdot_rows, npdot_cols, (form_ext m n (fun i j => N j i) M) by (intros; apply H; assumption).
  destruct (Req_EM_T _ 0) as [Z|Nz].
  - apply den_zero in Z. split; [discriminate|]. intros K. exfalso. apply K. apply Z.
  - rewrite cabs_csub_same. unfold Rdiv. rewrite Rmult_0_l. destruct (Rlt_dec 0 eps); [|lra]. split; [|reflexivity].
    intros _ E. apply Nz. apply den_zero. auto.
Qed.
Print Assumptions C101_adjoint_accepted.
(** The zero operator and its adjoint are rejected for every draw. *)
Theorem C101_adjoint_zero_refuted (m n : nat) (eps : R) (x0 x1 : nat -> R) : 0 < eps ->
  adjoint m n (fun _ _ => c0) (fun _ _ => c0) /\
  valid_adjoint n m (apply_matrix n (fun _ _ => c0)) (apply_matrix m (fun _ _ => c0)) eps x0 x1 = false.
Proof.
  intros He. split; [intros i j _ _; ceq; ring|]. apply not_true_is_false. intros E. apply C101_adjoint_accepted in E; [|intros i j _ _; reflexivity|exact He].
  apply E. apply csumn_0. intros i _. apply csumn_0. intros j _. ceq; ring.
Qed.
Print Assumptions C101_adjoint_zero_refuted.
(** An error of the factor, smaller than the tolerance, is accepted for every such draw. *)
Theorem C101_adjoint_tolerance_refuted (m n : nat) (M : cmatrix) (eps delta : R) (x0 x1 : nat -> R) : 0 < delta -> delta < eps -> form m n M x0 x1 <> c0 ->
  valid_adjoint n m (apply_matrix n M) (apply_matrix m (fun j i => cscal (1 + delta) (M i j))) eps x0 x1 = true.
Proof.
  intros Hd He Hf. unfold valid_adjoint, adj_err. cbv zeta. rewrite npdot_rows, npdot_cols.
  set (z := form m n M x0 x1) in *.
  assert (E : form m n (fun i j => cscal (1 + delta) (M i j)) x0 x1 = cscal (1 + delta) z).
  { unfold z, form. rewrite cscal_mul, <- csumn_scal. apply csumn_ext. intros i _. rewrite <- csumn_scal. apply csumn_ext. intros j _. ceq; ring. }
  rewrite E. replace (csub z (cscal (1 + delta) z)) with (cscal (- delta) z) by (ceq; ring). rewrite !cabs_scal, Rabs_Ropp, !Rabs_right by lra.
  assert (P : 0 < cabs z) by (pose proof (cabs_nonneg z); destruct (Req_EM_T (cabs z) 0) as [Z|]; [exfalso; apply Hf, cabs_zero; exact Z|lra]).
  rewrite Rmax_right by nra. assert (Q : 0 < (1 + delta) * cabs z) by nra. destruct (Req_EM_T _ 0); [lra|].
  destruct (Rlt_dec _ eps) as [|F]; [reflexivity|]. exfalso. apply F. apply (Rmult_lt_reg_r ((1 + delta) * cabs z)); [exact Q|].
  unfold Rdiv. rewrite Rmult_assoc, Rinv_l by lra. assert (delta * cabs z < eps * cabs z) by (apply Rmult_lt_compat_r; assumption). nra.
Qed.
Print Assumptions C101_adjoint_tolerance_refuted.
(** For complex operators the transpose is accepted and the adjoint rejected: multiplication by i, any size, any tolerance up to 2. *)
Theorem C101_adjoint_complex_refuted (n : nat) (eps : R) (x0 x1 : nat -> R) : 0 < eps <= 2 ->
  let A := fun i j => if Nat.eqb i j then (0, 1) else c0 in
  let AH := fun i j => if Nat.eqb i j then (0, -1) else c0 in
  adjoint n n A AH /\ valid_adjoint n n (apply_matrix n A) (apply_matrix n AH) eps x0 x1 = false /\
  (form n n A x0 x1 <> c0 -> valid_adjoint n n (apply_matrix n A) (apply_matrix n A) eps x0 x1 = true).
Proof.
  intros He A AH. split; [|split].
  - intros i j _ _. unfold A, AH. rewrite (Nat.eqb_sym j i). destruct (Nat.eqb i j); ceq; ring.
  - unfold valid_adjoint, adj_err. cbv zeta. rewrite npdot_rows, npdot_cols. set (z := form n n A x0 x1).
    assert (E : form n n (fun i j => AH j i) x0 x1 = cscal (-1) z).
    { unfold z, form. rewrite cscal_mul, <- csumn_scal. apply csumn_ext. intros i _. rewrite <- csumn_scal. apply csumn_ext. intros j _.
      unfold A, AH. rewrite (Nat.eqb_sym j i). destruct (Nat.eqb i j); ceq; ring. }
    rewrite E. replace (csub z (cscal (-1) z)) with (cscal 2 z) by (ceq; ring). rewrite !cabs_scal.
    rewrite Rabs_m1. rewrite (Rabs_right 2), Rmult_1_l by lra. rewrite Rmax_left by lra.
    destruct (Req_EM_T (cabs z) 0) as [|Nz]; [reflexivity|]. replace (2 * cabs z / cabs z) with 2 by (field; exact Nz).
    destruct (Rlt_dec 2 eps); [lra|reflexivity].
  - intros Hf. apply C101_adjoint_accepted; [|lra|exact Hf]. intros i j _ _. unfold A. rewrite Nat.eqb_sym. reflexivity.
Qed.
Print Assumptions C101_adjoint_complex_refuted.

(** Cases meeting the hypotheses. *)
Example C101_instance : rrs 1 (fun _ => 1) (fun _ => -1) = 2 /\
  let A := fun i j => if Nat.eqb i j then (0, 1) else c0 in form 2 2 A (fun _ => 1) (fun i => INR i + 1) <> c0 /\ transposed 2 2 A A.
Proof.
  split.
  - unfold rrs, nrm, nrm2, RVec.dot, vsub. cbn [sumn]. replace (0 + 1 * 1) with 1 by ring. replace (0 + -1 * -1) with 1 by ring.
    replace (0 + (1 - -1) * (1 - -1)) with (2 * 2) by ring. rewrite sqrt_1, sqrt_square by lra. rewrite Rmax_left by lra. destruct (Req_EM_T 1 0); [lra|field].
  - intros A. split.
    + intros E. apply (f_equal im) in E. unfold form, csumn, A, cscal, c0, re, im in E. simpl in E. lra.
    + intros i j _ _. unfold A. rewrite Nat.eqb_sym. reflexivity.
Qed.
