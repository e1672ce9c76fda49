Require Import List Arith ZArith Reals Bool Lia Lra FunctionalExtensionality.
Require Import Verif.RVec Verif.Cplx Verif.AdmmProps Verif.CgModel Verif.CgSpec.
Local Open Scope R_scope.

(** ** Complex vectors as real vectors of twice the length *)
Definition em (n : nat) (x : nat -> C) : nat -> R := fun i => if Nat.ltb i n then re (x i) else im (x (i - n)%nat).
Lemma em_dot n x y : dot (n + n) (em n x) (em n y) = inner_re n x y.
Proof.
  unfold dot, inner_re. rewrite sumn_split, sumn_plus. f_equal; apply sumn_ext; intros i Hi; unfold em.
  - destruct (Nat.ltb_spec i n); [reflexivity|lia].
  - destruct (Nat.ltb_spec (n + i) n); [lia|]. replace (n + i - n)%nat with i by lia. reflexivity.
Qed.
Lemma inner_re_self n x : inner_re n x x = size2 n x. Proof. reflexivity. Qed.
Lemma len_em n x : len n x = nrm (n + n) (em n x).
Proof. unfold len, nrm, nrm2. rewrite em_dot. reflexivity. Qed.
Lemma inner_le n x y : inner_re n x y <= len n x * len n y.
Proof. rewrite !len_em, <- em_dot. apply dot_le. Qed.
Lemma size2_nonneg n x : 0 <= size2 n x.
Proof. apply sumn_nonneg. intros i _. apply Rplus_le_le_0_compat; apply Rle_0_sqr. Qed.
Lemma len_nonneg n x : 0 <= len n x. Proof. apply sqrt_pos. Qed.
Lemma len_sqr n x : len n x * len n x = size2 n x.
Proof. apply sqrt_sqrt. apply size2_nonneg. Qed.
Lemma len_ext n x y : (forall i, (i < n)%nat -> x i = y i) -> len n x = len n y.
Proof. intros H. unfold len, size2. f_equal. apply sumn_ext. intros i Hi. rewrite H by exact Hi. reflexivity. Qed.
Lemma size2_0 n x : size2 n x = 0 -> forall i, (i < n)%nat -> x i = c0.
Proof.
  intros H i Hi. apply cabs2_0. apply (sumn_nonneg_0 n (fun i => re (x i) * re (x i) + im (x i) * im (x i))); [|exact H|exact Hi].
  intros j _. apply Rplus_le_le_0_compat; apply Rle_0_sqr.
Qed.
Lemma len_0 n x : len n x = 0 -> forall i, (i < n)%nat -> x i = c0.
Proof. intros H. apply size2_0. rewrite <- len_sqr, H. ring. Qed.
Lemma len_zero n x : (forall i, (i < n)%nat -> x i = c0) -> len n x = 0.
Proof.
  intros H. unfold len, size2. rewrite sumn_0; [apply sqrt_0|]. intros i Hi. rewrite H by exact Hi. unfold re, im, c0. simpl. ring.
Qed.
Lemma len_opp n x : len n (fun i => copp (x i)) = len n x.
Proof. unfold len, size2. f_equal. apply sumn_ext. intros i _. unfold copp, re, im. simpl. ring. Qed.
Lemma len_entry n x i : (i < n)%nat -> sqrt (cabs2 (x i)) <= len n x.
Proof.
  intros Hi. unfold len. apply sqrt_le_1_alt. apply (sumn_ge_term n (fun i => re (x i) * re (x i) + im (x i) * im (x i)) i); [|exact Hi].
  intros j _. apply Rplus_le_le_0_compat; apply Rle_0_sqr.
Qed.

Lemma csub_m1 a b : csub a b = cadd a (cmul (ofR (-1)) b).
Proof. destruct a, b. ceq; ring. Qed.
(** ** The operator *)
Section op.
Variables (F M K : nat) (ah : nat -> nat -> nat -> C) (rho : R).
Let n := (F * M)%nat.
Lemma ravel_at y f m : (m < M)%nat -> ravel M y (f * M + m)%nat = y f m.
Proof.
  intros H. unfold ravel. rewrite Nat.div_add_l, (Nat.div_small m M), Nat.add_0_r by lia.
  rewrite Nat.add_comm, Nat.mod_add, Nat.mod_small by lia. reflexivity.
Qed.
Lemma idx_lt f m : (f < F)%nat -> (m < M)%nat -> (f * M + m < n)%nat.
Proof. unfold n. intros Hf Hm. nia. Qed.
Lemma idx_of i : (i < n)%nat -> exists f m, (f < F)%nat /\ (m < M)%nat /\ i = (f * M + m)%nat.
Proof.
  unfold n. intros Hi. assert (HM : (M <> 0)%nat) by (intros ->; lia). exists (i / M)%nat, (i mod M)%nat. split; [|split].
  - apply Nat.div_lt_upper_bound; lia.
  - apply Nat.mod_upper_bound; exact HM.
  - rewrite (Nat.div_mod i M HM) at 1. lia.
Qed.
Lemma vop_at x f m : (m < M)%nat -> vop M K ah rho x (f * M + m)%nat =
  cadd (csumn K (fun k => cmul (conj (ah f k m)) (csumn M (fun j => cmul (ah f k j) (x (f * M + j)%nat))))) (cmul (ofR rho) (x (f * M + m)%nat)).
Proof. intros H. unfold vop. rewrite ravel_at by exact H. rewrite cscal_mul. reflexivity. Qed.

Lemma vop_linear : linear_op n (vop M K ah rho).
Proof.
  split.
  - intros a x y i Hi. destruct (idx_of i Hi) as (f & m & Hf & Hm & ->). rewrite !vop_at by exact Hm.
    transitivity (cadd (cadd (csumn K (fun k => cmul (conj (ah f k m)) (csumn M (fun j => cmul (ah f k j) (x (f * M + j)%nat)))))
        (cmul a (csumn K (fun k => cmul (conj (ah f k m)) (csumn M (fun j => cmul (ah f k j) (y (f * M + j)%nat)))))))
        (cmul (ofR rho) (cadd (x (f * M + m)%nat) (cmul a (y (f * M + m)%nat))))); [|ring].
    f_equal. rewrite <- csumn_scal, <- csumn_plus. apply csumn_ext. intros k _.
    transitivity (cmul (conj (ah f k m)) (cadd (csumn M (fun j => cmul (ah f k j) (x (f * M + j)%nat))) (cmul a (csumn M (fun j => cmul (ah f k j) (y (f * M + j)%nat)))))); [|ring].
    f_equal. rewrite <- csumn_scal, <- csumn_plus. apply csumn_ext. intros j _. ring.
  - intros x y H i Hi. destruct (idx_of i Hi) as (f & m & Hf & Hm & ->). rewrite !vop_at by exact Hm. rewrite H by (apply idx_lt; assumption). f_equal.
    apply csumn_ext. intros k _. f_equal. apply csumn_ext. intros j Hj. rewrite H by (apply idx_lt; assumption). reflexivity.
Qed.
Lemma block_vop b x : block_system F M K ah rho b x <-> forall i, (i < n)%nat -> vop M K ah rho x i = b i.
Proof.
  split.
  - intros H i Hi. destruct (idx_of i Hi) as (f & m & Hf & Hm & ->). rewrite vop_at by exact Hm. apply H; assumption.
  - intros H f m Hf Hm. rewrite <- (H (f * M + m)%nat) by (apply idx_lt; assumption). symmetry. apply vop_at. exact Hm.
Qed.

(** <vop x, y> = sum <A x, A y> + rho <x, y> *)
Definition cin (n : nat) (x y : nat -> C) : C := csumn n (fun i => cmul (conj (x i)) (y i)).
Lemma inner_cin N x y : inner_re N x y = re (cin N x y).
Proof. unfold inner_re, cin, csumn. simpl. apply sumn_ext. intros i _. unfold conj, re, im. simpl. ring. Qed.
Lemma csumn_flat N P g : csumn (N * P) g = csumn N (fun f => csumn P (fun m => g (f * P + m)%nat)).
Proof.
  destruct (Nat.eq_dec P 0) as [->|HP].
  - rewrite Nat.mul_0_r. symmetry. apply csumn_0. intros i _. reflexivity.
  - apply c_eq; unfold csumn, re, im; simpl; rewrite sumn_flat by lia; reflexivity.
Qed.
Lemma cin_vop x y : cin n (vop M K ah rho x) y =
  cadd (csumn F (fun f => csumn K (fun k => cmul (conj (csumn M (fun j => cmul (ah f k j) (x (f * M + j)%nat)))) (csumn M (fun j => cmul (ah f k j) (y (f * M + j)%nat))))))
       (cmul (ofR rho) (cin n x y)).
Proof.
  unfold cin. unfold n. rewrite !csumn_flat, <- csumn_scal, <- csumn_plus. apply csumn_ext. intros f _.
  rewrite <- csumn_scal.
  transitivity (csumn M (fun m => cadd (csumn K (fun k => cmul (conj (csumn M (fun j => cmul (ah f k j) (x (f * M + j)%nat)))) (cmul (ah f k m) (y (f * M + m)%nat))))
     (cmul (ofR rho) (cmul (conj (x (f * M + m)%nat)) (y (f * M + m)%nat))))).
  - apply csumn_ext. intros m Hm. rewrite vop_at by exact Hm. rewrite conj_add, conj_mul, conj_ofR, csumn_conj.
    transitivity (cadd (cmul (csumn K (fun k => conj (cmul (conj (ah f k m)) (csumn M (fun j => cmul (ah f k j) (x (f * M + j)%nat)))))) (y (f * M + m)%nat))
      (cmul (ofR rho) (cmul (conj (x (f * M + m)%nat)) (y (f * M + m)%nat)))); [ring|]. f_equal.
    rewrite <- csumn_scal_r. apply csumn_ext. intros k _. rewrite conj_mul, conj_conj. ring.
  - rewrite csumn_plus. f_equal. rewrite csumn_swap. apply csumn_ext. intros k _. rewrite <- csumn_scal. reflexivity.
Qed.
Lemma vop_symmetric x y : inner_re n (vop M K ah rho x) y = inner_re n x (vop M K ah rho y).
Proof.
  assert (E : forall N u v, inner_re N u v = inner_re N v u) by (intros; unfold inner_re; apply sumn_ext; intros; ring).
  assert (RS : forall u v, re (cmul (conj u) v) = re (cmul (conj v) u)) by (intros; unfold cmul, conj, re, im; simpl; ring).
  assert (RC : forall N g, re (csumn N g) = sumn N (fun i => re (g i))) by reflexivity.
  assert (RR : forall z, re (cmul (ofR rho) z) = rho * re z) by (intros; unfold cmul, ofR, re, im; simpl; ring).
  assert (RA : forall a b, re (cadd a b) = re a + re b) by reflexivity.
  rewrite (E n x (vop M K ah rho y)), !inner_cin, !cin_vop, !RA, !RR. rewrite <- !inner_cin, (E n x y). f_equal.
  rewrite !RC. apply sumn_ext. intros f _. rewrite !RC. apply sumn_ext. intros k _. apply RS.
Qed.
Lemma vop_positive x : rho * size2 n x <= inner_re n (vop M K ah rho x) x.
Proof.
  assert (RC : forall N g, re (csumn N g) = sumn N (fun i => re (g i))) by reflexivity.
  assert (RR : forall z, re (cmul (ofR rho) z) = rho * re z) by (intros; unfold cmul, ofR, re, im; simpl; ring).
  assert (RA : forall a b, re (cadd a b) = re a + re b) by reflexivity.
  rewrite inner_cin, cin_vop, RA, RR, <- inner_cin, inner_re_self.
  match goal with |- _ <= ?a + _ => enough (0 <= a) by lra end.
  rewrite RC. apply sumn_nonneg. intros f _. rewrite RC. apply sumn_nonneg. intros k _. generalize (csumn M (fun j => cmul (ah f k j) (x (f * M + j)%nat))). intros z.
  unfold cmul, conj, re, im. simpl. replace (fst z * fst z - - snd z * snd z) with (fst z * fst z + snd z * snd z) by ring.
  apply Rplus_le_le_0_compat; apply Rle_0_sqr.
Qed.

Hypothesis Hrho : 0 < rho.
Lemma vop_error b x y : (forall i, (i < n)%nat -> vop M K ah rho y i = b i) ->
  len n (fun i => csub (x i) (y i)) <= len n (residual (vop M K ah rho) b x) / rho.
Proof.
  intros Hy. set (e := fun i => csub (x i) (y i)).
  assert (Ee : forall i, (i < n)%nat -> vop M K ah rho e i = copp (residual (vop M K ah rho) b x i)).
  { intros i Hi. destruct vop_linear as [L1 L2]. unfold residual. rewrite <- (Hy i Hi).
    rewrite (L2 e (fun j => cadd (x j) (cmul (ofR (-1)) (y j)))); [|intros j _; apply csub_m1|exact Hi].
    rewrite L1, <- csub_m1 by exact Hi. ring. }
  pose proof (vop_positive e) as P.
  assert (Q : inner_re n (vop M K ah rho e) e <= len n (residual (vop M K ah rho) b x) * len n e).
  { eapply Rle_trans; [apply inner_le|]. right. f_equal. rewrite <- (len_opp n (residual _ b x)). apply len_ext. exact Ee. }
  rewrite <- len_sqr in P. destruct (Req_dec (len n e) 0) as [Z|Z].
  - rewrite Z. apply Rmult_le_pos; [apply len_nonneg|]. left. apply Rinv_0_lt_compat. exact Hrho.
  - assert (Pe : 0 < len n e) by (pose proof (len_nonneg n e); lra).
    apply Rmult_le_reg_r with (len n e); [exact Pe|]. apply Rmult_le_reg_l with rho; [exact Hrho|].
    replace (rho * (len n (residual (vop M K ah rho) b x) / rho * len n e)) with (len n (residual (vop M K ah rho) b x) * len n e) by (field; lra). lra.
Qed.
End op.

(** ** The algorithm of scipy meets the contract *)
Lemma cnorm_len n x : cnorm n x = len n x. Proof. reflexivity. Qed.
Lemma cg_loop_ok n A b atol mit (L : linear_op n A) : (0 < mit)%nat -> forall rest x r prev count x' info cnt, (forall i, (i < n)%nat -> r i = residual A b x i) ->
  cg_loop n A atol mit rest x r prev count = (x', info, cnt) -> (info = O -> len n (residual A b x') < atol) /\ (info = O \/ info = mit).
Proof.
  intros Hm. induction rest as [|rest IH]; intros x r prev count x' info cnt Hr; cbn [cg_loop].
  - intros E. injection E as <- <- <-. split; [lia|right; reflexivity].
  - destruct (Rlt_dec (cnorm n r) atol) as [Y|N].
    + intros E. injection E as <- <- <-. split; [|left; reflexivity]. intros _. rewrite <- (len_ext n r) by exact Hr. exact Y.
    + apply IH. intros i Hi. unfold residual. destruct L as [L1 _]. rewrite L1 by exact Hi. rewrite Hr by exact Hi. unfold residual. ring.
Qed.
Lemma scipy_contract n : cg_contract n (scipy_cg n).
Proof.
  constructor.
  - intros A b x0 mit tol x L E Hm Ht. unfold scipy_cg, cg_run in E. destruct (Req_EM_T (cnorm n b) 0) as [Z|NZ].
    + simpl in E. injection E as <-. rewrite cnorm_len in Z. right. rewrite Z, Rmult_0_r. apply len_zero. intros i Hi. unfold residual.
      pose proof (len_0 n b Z) as Zb. rewrite Zb by exact Hi. destruct L as [L1 L2].
      assert (A0 : A (fun _ => c0) i = c0).
      { pose proof (L1 (ofR (-1)) (fun _ => c0) (fun _ => c0) i Hi) as K. rewrite <- csub_m1 in K. replace (csub (A (fun _ => c0) i) (A (fun _ => c0) i)) with c0 in K by ring.
        etransitivity; [|exact K]. f_equal. extensionality j. ring. }
      rewrite (L2 b (fun _ => c0) Zb i Hi), A0. ring.
    + destruct (cg_loop _ _ _ _ _ _ _ _ _) as [[x' info] cnt] eqn:El. simpl in E. injection E as -> ->.
      eapply cg_loop_ok in El; [|exact L|exact Hm|intros i _; reflexivity]. left. apply El. reflexivity.
  - intros A b x0 mit tol L Hm H. unfold scipy_cg, cg_run. destruct (Req_EM_T (cnorm n b) 0) as [Z|NZ].
    + exfalso. rewrite cnorm_len in Z. rewrite Z, Rmult_0_r in H. pose proof (len_nonneg n (residual A b x0)). lra.
    + destruct mit as [|mit]; [lia|]. cbn [cg_loop].
      destruct (Rlt_dec (cnorm n (fun i => csub (b i) (A x0 i))) (tol * cnorm n b)) as [Y|N]; [reflexivity|]. exfalso. apply N. exact H.
  - intros A b x0 mit tol L. unfold scipy_cg, cg_run. destruct (Req_EM_T (cnorm n b) 0); [left; reflexivity|].
    destruct mit as [|mit]; [left; reflexivity|].
    destruct (cg_loop _ _ _ _ _ _ _ _ _) as [[x' info] cnt] eqn:El. simpl.
    eapply cg_loop_ok in El; [|exact L|apply Nat.lt_0_succ|intros i _; reflexivity]. apply El.
Qed.
