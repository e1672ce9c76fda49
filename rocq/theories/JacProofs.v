(** ADMM for min 1/2 || H x - s ||^2 + g(A x - c), split as A x - y = c, whose x step is not the exact minimiser but an even number of
    sweeps of the Jacobi iteration started from the previous x.  The sweeps are the same as one exact proximal step for a positive
    semidefinite quadratic term, so that the iterates converge to a minimiser for every relaxation parameter between 0 and 2. *)
Require Import Reals Lra Lia Arith FunctionalExtensionality.
Require Import Verif.RVec Verif.ProxModel Verif.AdmmModel Verif.AdmmSpec Verif.AdmmProofs Verif.AdmmConv Verif.AdmmProps Verif.Compact Verif.AdmmLimit.
Require Import Verif.StepsModel Verif.StepsSpec Verif.StepsProofs Verif.CscTwoProofs Verif.LimitProofs Verif.LimitTwo Verif.DualProofs Verif.SplitConv.
Local Open Scope R_scope.
Local Notation vec := (nat -> R).

(** ** Sums of powers of the Jacobi operator *)
Section jacobi.
Variables (n : nat) (Md : vec) (Nb : vec -> vec).
Hypothesis Mpos : forall i, (i < n)%nat -> 0 < Md i.
Hypothesis HN : linear_map Nb.
Hypothesis Nloc : forall x y, (forall i, (i < n)%nat -> x i = y i) -> forall p, (p < n)%nat -> Nb x p = Nb y p.
Hypothesis Nsym : forall x y, dot n (Nb x) y = dot n x (Nb y).
Variable kap : R.
Hypothesis Hkap : 0 < kap.
(** Md + Nb is positive definite. *)
Hypothesis Hplus : forall x, kap * nrm2 n x <= sumn n (fun i => Md i * x i * x i) + dot n (Nb x) x.

Definition jac (b x : vec) : vec := fun i => (Nb x i + b i) / Md i.
Definition T (v : vec) : vec := fun i => Nb v i / Md i.
Definition pw (j : nat) (v : vec) : vec := Nat.iter j T v.
Definition mi (v w : vec) : R := sumn n (fun i => Md i * v i * w i).
Definition Sop (r : nat) (v : vec) : vec := fun i => sumn r (fun j => pw j v i).

Lemma T_linear : linear_map T. Proof. intros a x b y p. unfold T. rewrite HN. unfold Rdiv. ring. Qed.
Lemma T_local x y : (forall i, (i < n)%nat -> x i = y i) -> forall i, (i < n)%nat -> T x i = T y i.
Proof. intros E i Hi. unfold T. rewrite (Nloc x y E i Hi). reflexivity. Qed.
Lemma pw_linear j : linear_map (pw j).
Proof.
  induction j as [|j IH]; intros a x b y p; [reflexivity|].
  change (pw (S j) (fun i => a * x i + b * y i)) with (T (pw j (fun i => a * x i + b * y i))). change (pw (S j) x) with (T (pw j x)). change (pw (S j) y) with (T (pw j y)).
  replace (pw j (fun i => a * x i + b * y i)) with (fun i => a * pw j x i + b * pw j y i) by (extensionality q; symmetry; apply IH). apply T_linear.
Qed.
Lemma pw_local j x y : (forall i, (i < n)%nat -> x i = y i) -> forall i, (i < n)%nat -> pw j x i = pw j y i.
Proof. intros E. induction j as [|j IH]; intros i Hi; [apply E; exact Hi|]. apply (T_local (pw j x) (pw j y) IH i Hi). Qed.
Lemma pw_S j v : pw (S j) v = T (pw j v). Proof. reflexivity. Qed.
Lemma pw_add i j v : pw (i + j) v = pw i (pw j v).
Proof. induction i as [|i IH]; [reflexivity|]. cbn [Nat.add]. rewrite !pw_S, IH. reflexivity. Qed.
Lemma Sop_linear r : linear_map (Sop r).
Proof. intros a x b y p. unfold Sop. rewrite <- !sumn_scal, <- sumn_plus. apply sumn_ext. intros j _. apply pw_linear. Qed.
Lemma Sop_local r x y : (forall i, (i < n)%nat -> x i = y i) -> forall i, (i < n)%nat -> Sop r x i = Sop r y i.
Proof. intros E i Hi. unfold Sop. apply sumn_ext. intros j _. apply pw_local; assumption. Qed.

Lemma mi_ext v w v' w' : (forall i, (i < n)%nat -> v i = v' i) -> (forall i, (i < n)%nat -> w i = w' i) -> mi v w = mi v' w'.
Proof. intros E1 E2. unfold mi. apply sumn_ext. intros i Hi. rewrite E1, E2 by exact Hi. reflexivity. Qed.
Lemma mi_comm v w : mi v w = mi w v. Proof. unfold mi. apply sumn_ext. intros i _. ring. Qed.
Lemma mi_T v w : mi v (T w) = dot n v (Nb w).
Proof. unfold mi, dot, T. apply sumn_ext. intros i Hi. specialize (Mpos i Hi). field. lra. Qed.
Lemma T_self v w : mi (T v) w = mi v (T w).
Proof. rewrite mi_T, mi_comm, mi_T. unfold dot at 1. rewrite (sumn_ext n _ (fun i => Nb v i * w i)) by (intros; ring). apply Nsym. Qed.
Lemma pw_self j v w : mi (pw j v) w = mi v (pw j w).
Proof.
  revert v w. induction j as [|j IH]; intros v w; [reflexivity|]. rewrite pw_S, T_self, IH. replace (S j) with (j + 1)%nat by lia. rewrite pw_add. reflexivity.
Qed.
Lemma mi_sum_l r (f : nat -> vec) w : mi (fun i => sumn r (fun j => f j i)) w = sumn r (fun j => mi (f j) w).
Proof.
  unfold mi. rewrite sumn_swap. apply sumn_ext. intros i _. rewrite <- sumn_scal. rewrite <- sumn_scal_r. apply sumn_ext. intros j _. ring.
Qed.
Lemma mi_lin_l a v b w z : mi (fun i => a * v i + b * w i) z = a * mi v z + b * mi w z.
Proof. unfold mi. rewrite <- !sumn_scal, <- sumn_plus. apply sumn_ext. intros i _. ring. Qed.
Lemma mi_nonneg v : 0 <= mi v v.
Proof. unfold mi. apply sumn_nonneg. intros i Hi. specialize (Mpos i Hi). rewrite Rmult_assoc. apply Rmult_le_pos; [lra|apply Rle_0_sqr]. Qed.

(** The form of the proximal term. *)
Definition Bf (r : nat) (v w : vec) : R := mi (Sop r v) (pw r w).
Lemma Sop_mi r v w : mi (Sop r v) w = sumn r (fun j => mi v (pw j w)).
Proof. unfold Sop. rewrite mi_sum_l. apply sumn_ext. intros j _. apply pw_self. Qed.
Lemma Sop_sym r v w : mi (Sop r v) w = mi v (Sop r w).
Proof. rewrite Sop_mi. rewrite (mi_comm v), Sop_mi. apply sumn_ext. intros j _. rewrite <- pw_self. apply mi_comm. Qed.
Lemma Sm_lin r a v b w z : mi (Sop r (fun i => a * v i + b * w i)) z = a * mi (Sop r v) z + b * mi (Sop r w) z.
Proof. replace (Sop r (fun i => a * v i + b * w i)) with (fun i => a * Sop r v i + b * Sop r w i) by (extensionality q; symmetry; apply Sop_linear). apply mi_lin_l. Qed.
Lemma Bf_sum r v w : Bf r v w = sumn r (fun j => mi v (pw (j + r) w)).
Proof. unfold Bf. rewrite Sop_mi. apply sumn_ext. intros j _. rewrite pw_add. reflexivity. Qed.
Lemma Bf_sym r v w : Bf r v w = Bf r w v.
Proof. rewrite !Bf_sum. apply sumn_ext. intros j _. rewrite <- pw_self. apply mi_comm. Qed.
Lemma Bf_lin r a v b w z : Bf r (fun i => a * v i + b * w i) z = a * Bf r v z + b * Bf r w z.
Proof.
  unfold Bf. replace (Sop r (fun i => a * v i + b * w i)) with (fun i => a * Sop r v i + b * Sop r w i) by (extensionality q; symmetry; apply Sop_linear). apply mi_lin_l.
Qed.
Lemma Bf_ext r v w v' w' : (forall i, (i < n)%nat -> v i = v' i) -> (forall i, (i < n)%nat -> w i = w' i) -> Bf r v w = Bf r v' w'.
Proof. intros E1 E2. unfold Bf. apply mi_ext; [apply Sop_local; exact E1|apply pw_local; exact E2]. Qed.
Lemma pairs k f : sumn (2 * k) f = sumn k (fun j => f (2 * j)%nat + f (2 * j + 1)%nat).
Proof. induction k as [|k IH]; [reflexivity|]. replace (2 * S k)%nat with (S (S (2 * k))) by lia. cbn [sumn]. rewrite IH. replace (2 * k + 1)%nat with (S (2 * k)) by lia. ring. Qed.
Lemma pair_nonneg z : kap * nrm2 n z <= mi z z + mi z (T z).
Proof. rewrite mi_T. eapply Rle_trans; [apply Hplus|]. rewrite Nsym. unfold mi. lra. Qed.
Lemma even_pow j v : mi v (pw (2 * j) v) + mi v (pw (2 * j + 1) v) = mi (pw j v) (pw j v) + mi (pw j v) (T (pw j v)).
Proof.
  rewrite !(pw_self j v). rewrite <- (pw_S j v), <- !pw_add. replace (j + j)%nat with (2 * j)%nat by lia. replace (j + S j)%nat with (2 * j + 1)%nat by lia. reflexivity.
Qed.
Lemma Bf_nonneg k v : 0 <= Bf (2 * k) v v.
Proof.
  rewrite Bf_sum, pairs. apply sumn_nonneg. intros j _. replace (2 * j + 2 * k)%nat with (2 * (j + k))%nat by lia. replace (2 * j + 1 + 2 * k)%nat with (2 * (j + k) + 1)%nat by lia.
  rewrite even_pow. pose proof (pair_nonneg (pw (j + k) v)). pose proof (Rmult_le_pos _ _ (Rlt_le _ _ Hkap) (nrm2_nonneg n (pw (j + k) v))). lra.
Qed.
Lemma Sop_pos k v : (0 < k)%nat -> kap * nrm2 n v <= mi (Sop (2 * k) v) v.
Proof.
  intros Hk. rewrite Sop_mi, pairs. apply Rle_trans with (mi v (pw (2 * 0) v) + mi v (pw (2 * 0 + 1) v)).
  - rewrite even_pow. apply pair_nonneg.
  - apply (sumn_ge_term k (fun j => mi v (pw (2 * j) v) + mi v (pw (2 * j + 1) v)) 0); [|exact Hk]. intros j _. rewrite even_pow.
    pose proof (pair_nonneg (pw j v)). pose proof (Rmult_le_pos _ _ (Rlt_le _ _ Hkap) (nrm2_nonneg n (pw j v))). lra.
Qed.

(** Cauchy-Schwarz for the form. *)
Lemma Bf_cs k v w : Bf (2 * k) v w * Bf (2 * k) v w <= Bf (2 * k) v v * Bf (2 * k) w w.
Proof.
  set (a := Bf (2 * k) v v). set (b := Bf (2 * k) v w). set (c := Bf (2 * k) w w).
  assert (E : forall s t, 0 <= s * s * a + 2 * s * t * b + t * t * c).
  { intros s t. pose proof (Bf_nonneg k (fun i => s * v i + t * w i)) as Q. rewrite Bf_lin in Q. rewrite (Bf_sym _ v), (Bf_sym _ w), !Bf_lin, (Bf_sym _ w v) in Q. fold a b c in Q. lra. }
  pose proof (E 1 0) as Ea. pose proof (E 0 1) as Ec. destruct (Rle_lt_or_eq_dec 0 c ltac:(lra)) as [P|Z].
  - pose proof (E c (- b)) as Q. assert (H : 0 <= c * (a * c - b * b)) by lra. apply Rnot_lt_le. intros X. assert (0 < c * (b * b - a * c)) by (apply Rmult_lt_0_compat; lra). lra.
  - rewrite <- Z. rewrite <- Z in E. destruct (Req_dec b 0) as [->|N]; [lra|]. exfalso. pose proof (E 1 (- (a + 1) / b)) as Q.
    replace (1 * 1 * a + 2 * 1 * (- (a + 1) / b) * b + - (a + 1) / b * (- (a + 1) / b) * 0) with (a - 2 * (a + 1)) in Q by (field; exact N). lra.
Qed.

(** The sum of powers is onto. *)
Lemma Sop_onto k v : (0 < k)%nat -> exists d, forall i, (i < n)%nat -> Sop (2 * k) d i = v i.
Proof.
  intros Hk. set (F := fun x => / 2 * mi (Sop (2 * k) x) x - mi v x).
  assert (L : loc_lip n F).
  { unfold F, mi. apply (lip_ext_fun n (fun x => / 2 * sumn n (fun i => Md i * (Sop (2 * k) x i * x i)) + sumn n (fun i => - (Md i * v i) * x i))).
    { intros x. rewrite (sumn_ext n (fun i => Md i * (Sop (2 * k) x i * x i)) (fun i => Md i * Sop (2 * k) x i * x i)) by (intros; ring).
      rewrite (sumn_ext n (fun i => - (Md i * v i) * x i) (fun i => (-1) * (Md i * v i * x i))) by (intros; ring). rewrite sumn_scal. ring. }
    apply lip_plus.
    - apply lip_scal. apply (lip_sumn n n (fun i x => Md i * (Sop (2 * k) x i * x i))). intros i Hi. apply lip_scal. apply lip_mult; [|apply lip_coord; exact Hi].
      apply (lip_linear n n (Sop (2 * k)) i (Sop_linear _) (Sop_local _) Hi).
    - apply (lip_sumn n n (fun i x => - (Md i * v i) * x i)). intros i Hi. apply lip_scal. apply lip_coord. exact Hi. }
  destruct (coercive_min n (fun _ => True) F 1 (sumn n (fun i => (Rabs (Md i * v i) + 1) * (Rabs (Md i * v i) + 1) / (2 * kap))) (boxes_true n) L ltac:(lra)) as [d Hd].
  { intros x _. unfold F. pose proof (Sop_pos k x Hk) as Q. unfold nrm2, dot in Q. rewrite <- sumn_scal in Q.
    apply Rle_trans with (sumn n (fun i => kap / 2 * (x i * x i) - Md i * v i * x i)).
    - rewrite Rmult_1_l. assert (E : sumn n (fun i => Rabs (x i)) - sumn n (fun i => (Rabs (Md i * v i) + 1) * (Rabs (Md i * v i) + 1) / (2 * kap)) =
        sumn n (fun i => Rabs (x i) - (Rabs (Md i * v i) + 1) * (Rabs (Md i * v i) + 1) / (2 * kap))) by (rewrite sumn_minus; reflexivity).
      rewrite E. apply sumn_le. intros i _. set (c := Rabs (Md i * v i)). set (t := Rabs (x i)).
      assert (E1 : x i * x i = t * t) by (unfold t; rewrite <- Rabs_mult, Rabs_pos_eq; [reflexivity|apply Rle_0_sqr]).
      assert (E2 : Md i * v i * x i <= c * t) by (unfold c, t; rewrite <- Rabs_mult; apply Rle_abs).
      assert (E3 : 0 <= / (2 * kap) * ((kap * t - (c + 1)) * (kap * t - (c + 1)))) by (apply Rmult_le_pos; [left; apply Rinv_0_lt_compat; lra|apply Rle_0_sqr]).
      rewrite E1. replace (/ (2 * kap) * ((kap * t - (c + 1)) * (kap * t - (c + 1)))) with (kap / 2 * (t * t) - (c + 1) * t + (c + 1) * (c + 1) / (2 * kap)) in E3 by (field; lra). lra.
    - rewrite sumn_minus. fold (mi v x). rewrite (sumn_ext n _ (fun i => / 2 * (kap * (x i * x i)))) by (intros; field). rewrite sumn_scal. lra. }
  exists d. intros i Hi. set (e := fun j => if Nat.eqb j i then 1 else 0). destruct Hd as [_ Hd].
  assert (Ee : forall z, mi z e = Md i * z i).
  { intros z. unfold mi, e. rewrite (sumn_ext n _ (fun j => if Nat.eqb j i then Md j * z j else 0)) by (intros j _; destruct (Nat.eqb j i); ring). rewrite sumn_delta by exact Hi. reflexivity. }
  set (a := mi (Sop (2 * k) d) e - mi v e). set (q := mi (Sop (2 * k) e) e).
  assert (St : forall t, 0 <= t * a + t * t / 2 * q).
  { intros t. specialize (Hd (fun j => 1 * d j + t * e j) Logic.I). unfold F in Hd.
    assert (X : mi (Sop (2 * k) (fun j => 1 * d j + t * e j)) (fun j => 1 * d j + t * e j) = mi (Sop (2 * k) d) d + 2 * t * mi (Sop (2 * k) d) e + t * t * q).
    { rewrite Sm_lin. rewrite !(Sop_sym _ _ (fun j => 1 * d j + t * e j)), !(mi_comm _ (Sop _ (fun j => 1 * d j + t * e j))), !Sm_lin.
      fold q. rewrite (mi_comm (Sop (2 * k) e) d), <- (Sop_sym _ d e). ring. }
    rewrite X in Hd. rewrite (mi_comm v (fun j => 1 * d j + t * e j)), mi_lin_l, (mi_comm d v), (mi_comm e v) in Hd. unfold a. lra. }
  assert (Q0 : 0 <= q) by (unfold q; pose proof (Sop_pos k e Hk); pose proof (Rmult_le_pos _ _ (Rlt_le _ _ Hkap) (nrm2_nonneg n e)); lra).
  assert (A0 : a = 0).
  { destruct (Req_dec a 0) as [->|N]; [reflexivity|]. exfalso. pose proof (St (- a / (q + 1))) as P.
    replace (- a / (q + 1) * a + - a / (q + 1) * (- a / (q + 1)) / 2 * q) with (- (a * a) * (/ ((q + 1) * (q + 1)) * (1 + q / 2))) in P by (field; lra).
    assert (0 < a * a) by (apply Rsqr_pos_lt; exact N). assert (0 < / ((q + 1) * (q + 1)) * (1 + q / 2)) by (apply Rmult_lt_0_compat; [apply Rinv_0_lt_compat; nra|lra]).
    assert (0 < a * a * (/ ((q + 1) * (q + 1)) * (1 + q / 2))) by (apply Rmult_lt_0_compat; assumption). lra. }
  unfold a in A0. rewrite !Ee in A0. specialize (Mpos i Hi). apply (Rmult_eq_reg_l (Md i)); lra.
Qed.

(** ** The sweeps *)
Definition sweeps (r : nat) (b x : vec) : vec := Nat.iter r (jac b) x.
Lemma sweep_diff b x r : forall i, (i < n)%nat -> sweeps (S r) b x i - sweeps r b x i = pw r (fun j => jac b x j - x j) i.
Proof.
  induction r as [|r IH]; intros i Hi; [reflexivity|]. rewrite pw_S. change (sweeps (S (S r)) b x) with (jac b (sweeps (S r) b x)). change (sweeps (S r) b x) with (jac b (sweeps r b x)) at 2.
  rewrite <- (T_local (fun j => sweeps (S r) b x j - sweeps r b x j) _ IH i Hi). unfold T, jac. rewrite linear_sub by exact HN. specialize (Mpos i Hi). field. lra.
Qed.
Lemma sweep_sum b x r : forall i, (i < n)%nat -> sweeps r b x i - x i = Sop r (fun j => jac b x j - x j) i.
Proof.
  induction r as [|r IH]; intros i Hi; [unfold Sop; cbn; ring|]. unfold Sop. cbn [sumn]. fold (Sop r (fun j => jac b x j - x j) i). rewrite <- IH, <- sweep_diff by exact Hi. ring.
Qed.
(** The residual of the linear system after r sweeps. *)
Lemma sweep_residual b x r i : (i < n)%nat -> Md i * sweeps r b x i - Nb (sweeps r b x) i - b i = - (Md i * pw r (fun j => jac b x j - x j) i).
Proof.
  intros Hi. rewrite <- sweep_diff by exact Hi. change (sweeps (S r) b x) with (jac b (sweeps r b x)). unfold jac. specialize (Mpos i Hi). field. lra.
Qed.
End jacobi.

(** ** The iteration *)
Section inexact.
Variables (n mh m : nat) (H HT : vec -> vec) (s : vec) (A AT : vec -> vec) (c : vec) (g : vec -> R) (Lg rlx rho : R).
Variables (Md : vec) (Nb : vec -> vec) (kap : R) (k : nat).
Hypothesis HH : linear_map H.
Hypothesis Hloc : local_map n H.
Hypothesis Hadj : forall x v, dot mh (H x) v = dot n x (HT v).
Hypothesis HA : linear_map A.
Hypothesis Aloc : forall x y, (forall i, (i < n)%nat -> x i = y i) -> forall p, (p < m)%nat -> A x p = A y p.
Hypothesis Aadj : forall x v, dot m (A x) v = dot n x (AT v).
Hypothesis Cg : convex_on (fun _ => True) g.
Hypothesis Pg : forall y, 0 <= g y.
Hypothesis HLg : 0 <= Lg.
Hypothesis Gl : forall a b, Rabs (g a - g b) <= Lg * nrm m (fun i => a i - b i).
Hypothesis Hrho : 0 < rho.
Hypothesis Hrlx : 0 < rlx < 2.
Hypothesis Mpos : forall i, (i < n)%nat -> 0 < Md i.
Hypothesis HN : linear_map Nb.
Hypothesis Nloc : forall x y, (forall i, (i < n)%nat -> x i = y i) -> forall p, (p < n)%nat -> Nb x p = Nb y p.
Hypothesis Hsplit : forall x i, (i < n)%nat -> Md i * x i - Nb x i = HT (H x) i + rho * AT (A x) i.
Hypothesis Hkap : 0 < kap.
Hypothesis Hplus : forall x, kap * nrm2 n x <= sumn n (fun i => Md i * x i * x i) + dot n (Nb x) x.
Hypothesis Hminus : forall x, kap * nrm2 n x <= nrm2 mh (H x) + rho * nrm2 m (A x).
Hypothesis Hk : (0 < k)%nat.

Definition rhs (y u : vec) : vec := fun i => HT s i + rho * AT (fun j => y j - u j + c j) i.
Variables X Y U : nat -> vec.
Definition AXr (j : nat) : vec := fun i => rlx * A (X (S j)) i + (1 - rlx) * (Y j i + c i).
Hypothesis HX : forall j i, (i < n)%nat -> X (S j) i = sweeps Md Nb (2 * k) (rhs (Y j) (U j)) (X j) i.
Hypothesis HY : forall j, argmin (fun _ => True) (fun v => g v + rho / 2 * nrm2 m (fun i => eq_B v i + (AXr j i - c i + U j i))) (Y (S j)).
Hypothesis HU : forall j i, (i < m)%nat -> U (S j) i = U j i + (AXr j i + eq_B (Y (S j)) i - c i).

Notation f := (lsq mh H s).
Notation objective := (split_obj mh H s A c g).
Notation mi := (mi n Md).
Notation Bf := (Bf n Md Nb (2 * k)).
Notation Sop := (Sop Md Nb (2 * k)).
Notation pw := (pw Md Nb (2 * k)).

Lemma N_sym x y : dot n (Nb x) y = dot n x (Nb y).
Proof.
  assert (E : forall x y, dot n (Nb x) y = sumn n (fun i => Md i * x i * y i) - (dot mh (H x) (H y) + rho * dot m (A x) (A y))).
  { intros x0 y0. rewrite (Hadj x0), (Aadj x0). rewrite <- (Hadj x0), <- (Aadj x0). unfold dot at 2. rewrite (sumn_ext mh _ (fun i => H y0 i * H x0 i)) by (intros; ring). fold (dot mh (H y0) (H x0)).
    unfold dot at 3. rewrite (sumn_ext m _ (fun i => A y0 i * A x0 i)) by (intros; ring). fold (dot m (A y0) (A x0)). rewrite Hadj, Aadj. unfold dot. rewrite <- sumn_scal, <- sumn_plus, <- sumn_minus.
    apply sumn_ext. intros i Hi. pose proof (Hsplit x0 i Hi) as Q. replace (Nb x0 i) with (Md i * x0 i - (HT (H x0) i + rho * AT (A x0) i)) by lra. ring. }
  rewrite E. rewrite (dot_comm n x), E. rewrite (dot_comm mh (H y)), (dot_comm m (A y)). f_equal. apply sumn_ext. intros i _. ring.
Qed.

Definition d (j : nat) : vec := fun i => jac Md Nb (rhs (Y j) (U j)) (X j) i - X j i.
Definition Dl (j : nat) : vec := fun i => A (X (S j)) i - Y j i - c i.
Lemma X_diff j i : (i < n)%nat -> X (S j) i - X j i = Sop (d j) i.
Proof. intros Hi. rewrite HX by exact Hi. apply (sweep_sum n Md Nb Mpos HN Nloc); exact Hi. Qed.
Lemma x_eq j z : dot mh (H z) (fun i => H (X (S j)) i - s i) + rho * dot m (A z) (fun i => Dl j i + U j i) = - mi z (pw (d j)).
Proof.
  assert (R : forall i, (i < n)%nat -> HT (H (X (S j))) i + rho * AT (A (X (S j))) i - rhs (Y j) (U j) i = - (Md i * pw (d j) i)).
  { intros i Hi. rewrite <- Hsplit by exact Hi. rewrite HX by exact Hi. rewrite (Nloc (X (S j)) (sweeps Md Nb (2 * k) (rhs (Y j) (U j)) (X j)) (fun q Hq => HX j q Hq) i Hi).
    apply (sweep_residual n Md Nb Mpos HN Nloc). exact Hi. }
  replace (mi z (pw (d j))) with (- dot n z (fun i => HT (H (X (S j))) i + rho * AT (A (X (S j))) i - rhs (Y j) (U j) i)).
  2:{ unfold JacProofs.mi, dot. rewrite <- (Rmult_1_l (sumn n _)), Ropp_mult_distr_l, <- sumn_scal. apply sumn_ext. intros i Hi. rewrite R by exact Hi. ring. }
  rewrite Ropp_involutive. unfold rhs.
  assert (E : dot n z (fun i => HT (H (X (S j))) i + rho * AT (A (X (S j))) i - (HT s i + rho * AT (fun q => Y j q - U j q + c q) i)) =
    dot n z (HT (H (X (S j)))) - dot n z (HT s) + rho * (dot n z (AT (A (X (S j)))) - dot n z (AT (fun q => Y j q - U j q + c q)))).
  { unfold dot. rewrite <- !sumn_minus, <- sumn_scal, <- sumn_plus. apply sumn_ext. intros i _. ring. }
  rewrite E. rewrite <- !Hadj, <- !Aadj. unfold dot. rewrite <- !sumn_minus. f_equal; [apply sumn_ext; intros; ring|]. f_equal. apply sumn_ext. intros i _. unfold Dl. ring.
Qed.

Lemma y_in j v : g (Y (S j)) + rho * dot m (U (S j)) (fun i => v i - Y (S j) i) <= g v.
Proof.
  pose proof (y_vi m eq_B c rho (fun _ => True) g (eqB_affine m) Cg Hrho (Y (S j)) (U j) (U (S j)) (AXr j) (HY j) (fun i Hi => HU j i Hi) v Logic.I) as Q.
  assert (E : dot m (U (S j)) (fun i => eq_B v i - eq_B (Y (S j)) i) = - dot m (U (S j)) (fun i => v i - Y (S j) i)).
  { unfold dot. rewrite <- (Rmult_1_l (sumn m (fun i => U (S j) i * (v i - Y (S j) i)))), Ropp_mult_distr_l, <- sumn_scal. apply sumn_ext. intros i _. unfold eq_B. ring. }
  rewrite E in Q. lra.
Qed.

(** ** Optimality conditions *)
Definition kkt (p l w : vec) : Prop := (forall i, (i < m)%nat -> l i = A p i - c i) /\
  (forall z, dot mh (H z) (fun i => H p i - s i) + rho * dot m (A z) w = 0) /\ (forall v, g l + rho * dot m w (fun i => v i - l i) <= g v).

Lemma quad0 a b : (forall t, 0 <= t * a + t * t * b) -> a = 0.
Proof.
  intros Q. destruct (Req_dec a 0) as [->|N]; [reflexivity|]. exfalso. set (e := Rabs b + 1). assert (He : 0 < e) by (unfold e; pose proof (Rabs_pos b); lra). pose proof (Rle_abs b) as Hb.
  specialize (Q (- a / e)). replace (- a / e * a + - a / e * (- a / e) * b) with (- (a * a / (e * e)) * (e - b)) in Q by (field; lra).
  assert (0 < a * a) by (apply Rsqr_pos_lt; exact N). assert (0 < a * a / (e * e)) by (apply Rdiv_lt_0_compat; nra). assert (0 < a * a / (e * e) * (e - b)) by (apply Rmult_lt_0_compat; [assumption|unfold e; lra]). lra.
Qed.
Lemma lsq_move p z t : f (fun i => 1 * p i + t * z i) = f p + t * dot mh (H z) (fun i => H p i - s i) + t * t * (/ 2 * nrm2 mh (H z)).
Proof.
  unfold lsq, nrm2, dot. rewrite <- !sumn_scal, <- !sumn_plus. apply sumn_ext. intros i _. rewrite HH. field.
Qed.
Lemma kkt_exists p : argmin (fun _ => True) objective p -> exists w, kkt p (fun i => A p i - c i) w.
Proof.
  intros Hp. destruct (argmin_saddle n mh m H s A c g Lg rho HH Hloc HA Aloc Cg Pg HLg Gl Hrho p Hp) as (w & _ & Sd). exists w. split; [reflexivity|]. split.
  - intros z. apply (quad0 _ (/ 2 * nrm2 mh (H z))). intros t. specialize (Sd (fun i => 1 * p i + t * z i) (fun i => A p i - c i) Logic.I Logic.I). rewrite lsq_move in Sd.
    assert (E : dot m w (gap A eq_B c (fun i => 1 * p i + t * z i) (fun i => A p i - c i)) = t * dot m (A z) w).
    { unfold dot. rewrite <- sumn_scal. apply sumn_ext. intros i _. unfold gap, eq_B. rewrite HA. ring. }
    rewrite E in Sd. lra.
  - intros v. specialize (Sd p v Logic.I Logic.I).
    assert (E : dot m w (gap A eq_B c p v) = - dot m w (fun i => v i - (A p i - c i))).
    { unfold dot. rewrite <- (Rmult_1_l (sumn m (fun i => w i * (v i - (A p i - c i))))), Ropp_mult_distr_l, <- sumn_scal. apply sumn_ext. intros i _. unfold gap, eq_B. ring. }
    rewrite E in Sd. lra.
Qed.
Lemma g_loc a b : (forall i, (i < m)%nat -> a i = b i) -> g a = g b.
Proof. apply (lip_loc m g). apply (glob_lip m g Lg HLg Gl). Qed.
Lemma kkt_argmin p l w : kkt p l w -> argmin (fun _ => True) objective p.
Proof.
  intros (K1 & K2 & K3). split; [exact Logic.I|]. intros x _. unfold split_obj. rewrite (g_loc (fun i => A p i - c i) l) by (intros; symmetry; apply K1; assumption).
  pose proof (K3 (fun i => A x i - c i)) as Q. specialize (K2 (fun i => x i - p i)).
  pose proof (lsq_move p (fun i => x i - p i) 1) as E. cbv beta in E. rewrite (lip_loc n f (fun i => 1 * p i + 1 * (x i - p i)) x) in E;
    [|apply (lip_lsq n mh H s HH); intros; apply Hloc; assumption|intros; ring].
  assert (E2 : dot m (A (fun i => x i - p i)) w = dot m w (fun i => A x i - c i - l i)).
  { unfold dot. apply sumn_ext. intros i Hi. rewrite linear_sub by exact HA. rewrite K1 by exact Hi. ring. }
  rewrite E2 in K2. pose proof (nrm2_nonneg mh (H (fun i => x i - p i))). lra.
Qed.

(** ** The Lyapunov function *)
Section lyapunov.
Variables (p l w : vec) (d0 : vec).
Hypothesis Kt : kkt p l w.
Hypothesis Hd0 : forall i, (i < n)%nat -> Sop d0 i = X O i - p i.
Definition dl (j : nat) : vec := fun i => d0 i + sumn j (fun q => d q i).
Lemma dl_S j : dl (S j) = fun i => 1 * dl j i + 1 * d j i.
Proof. extensionality i. unfold dl. cbn [sumn]. ring. Qed.
Lemma dl_x j i : (i < n)%nat -> Sop (dl j) i = X j i - p i.
Proof.
  intros Hi. induction j as [|j IH].
  - rewrite <- Hd0 by exact Hi. apply (Sop_local n Md Nb Nloc); [|exact Hi]. intros q _. unfold dl. cbn [sumn]. ring.
  - rewrite dl_S. rewrite (Sop_linear Md Nb HN). rewrite IH, <- X_diff by exact Hi. ring.
Qed.
Definition wdist (j : nat) : vec := fun i => (Y j i + U j i) - (l i + w i).
Definition V (j : nat) : R := nrm2 m (wdist j) + rlx / rho * Bf (dl j) (dl j).
Lemma w_step j i : (i < m)%nat -> wdist (S j) i = wdist j i + rlx * Dl j i.
Proof. intros Hi. unfold wdist. rewrite HU by exact Hi. unfold AXr, Dl, eq_B. ring. Qed.
Lemma mono_y j : 0 <= dot m (fun i => U (S j) i - w i) (fun i => Y (S j) i - l i).
Proof.
  destruct Kt as (_ & _ & K3). pose proof (K3 (Y (S j))) as Q1. pose proof (y_in j l) as Q2.
  assert (E : dot m (fun i => U (S j) i - w i) (fun i => Y (S j) i - l i) = - dot m (U (S j)) (fun i => l i - Y (S j) i) - dot m w (fun i => Y (S j) i - l i)).
  { unfold dot. rewrite <- (Rmult_1_l (sumn m (fun i => U (S j) i * (l i - Y (S j) i)))), Ropp_mult_distr_l, <- sumn_scal, <- sumn_minus. apply sumn_ext. intros i _. ring. }
  rewrite E. assert (0 <= rho * (- dot m (U (S j)) (fun i => l i - Y (S j) i) - dot m w (fun i => Y (S j) i - l i))) by lra.
  apply Rnot_lt_le. intros X0. assert (rho * (- (- dot m (U (S j)) (fun i => l i - Y (S j) i) - dot m w (fun i => Y (S j) i - l i))) > 0) by (apply Rmult_lt_0_compat; lra). lra.
Qed.
Notation xerr j := (fun i => X j i - p i).
Lemma x_mono j : nrm2 mh (H (xerr (S j))) + rho * dot m (A (xerr (S j))) (fun i => Dl j i + U j i - w i) = - Bf (dl (S j)) (d j).
Proof.
  destruct Kt as (_ & K2 & _). pose proof (x_eq j (xerr (S j))) as Q1. specialize (K2 (xerr (S j))).
  assert (E1 : nrm2 mh (H (xerr (S j))) = dot mh (H (xerr (S j))) (fun i => H (X (S j)) i - s i) - dot mh (H (xerr (S j))) (fun i => H p i - s i)).
  { unfold nrm2, dot. rewrite <- sumn_minus. apply sumn_ext. intros i _. rewrite !(linear_sub H) by exact HH. ring. }
  assert (E2 : dot m (A (xerr (S j))) (fun i => Dl j i + U j i - w i) = dot m (A (xerr (S j))) (fun i => Dl j i + U j i) - dot m (A (xerr (S j))) w).
  { unfold dot. rewrite <- sumn_minus. apply sumn_ext. intros i _. ring. }
  rewrite E1, E2. unfold JacProofs.Bf. rewrite (mi_ext n Md (Sop (dl (S j))) _ (xerr (S j)) (pw (d j)) (fun i Hi => dl_x (S j) i Hi) (fun i _ => eq_refl)). lra.
Qed.
Lemma V_step j : V (S (S j)) + (rlx * (2 - rlx) * nrm2 m (Dl (S j)) + rlx / rho * Bf (d (S j)) (d (S j)) + 2 * rlx / rho * nrm2 mh (H (xerr (S (S j))))) <= V (S j).
Proof.
  destruct Kt as (K1 & _ & _).
  pose proof (x_mono (S j)) as Q. pose proof (mono_y j) as My. set (D := Dl (S j)) in *. set (e := nrm2 mh (H (xerr (S (S j))))) in *.
  assert (EA : forall i, (i < m)%nat -> A (xerr (S (S j))) i = D i + (Y (S j) i - l i)).
  { intros i Hi. rewrite linear_sub by exact HA. unfold D, Dl. rewrite K1 by exact Hi. ring. }
  assert (E1 : dot m (A (xerr (S (S j)))) (fun i => D i + U (S j) i - w i) =
    dot m (fun i => U (S j) i - w i) (fun i => Y (S j) i - l i) + dot m D (wdist (S j)) + nrm2 m D).
  { unfold nrm2, dot. rewrite <- !sumn_plus. apply sumn_ext. intros i Hi. rewrite EA by exact Hi. unfold wdist. ring. }
  assert (E2 : nrm2 m (wdist (S (S j))) = nrm2 m (wdist (S j)) + 2 * rlx * dot m D (wdist (S j)) + rlx * rlx * nrm2 m D).
  { unfold nrm2, dot. rewrite <- !sumn_scal, <- !sumn_plus. apply sumn_ext. intros i Hi. rewrite w_step by exact Hi. fold D. ring. }
  assert (E3 : Bf (dl (S (S j))) (dl (S (S j))) = Bf (dl (S j)) (dl (S j)) + 2 * Bf (dl (S (S j))) (d (S j)) - Bf (d (S j)) (d (S j))).
  { rewrite dl_S. rewrite !(Bf_lin n Md Nb HN). rewrite (Bf_sym n Md Nb Mpos N_sym _ (dl (S j)) (fun i => 1 * dl (S j) i + 1 * d (S j) i)), (Bf_sym n Md Nb Mpos N_sym _ (d (S j)) (fun i => 1 * dl (S j) i + 1 * d (S j) i)), !(Bf_lin n Md Nb HN).
    rewrite (Bf_sym n Md Nb Mpos N_sym _ (d (S j)) (dl (S j))). ring. }
  unfold V. rewrite E2, E3. rewrite E1 in Q. set (b := Bf (dl (S (S j))) (d (S j))) in *. set (b1 := Bf (d (S j)) (d (S j))) in *. set (b2 := Bf (dl (S j)) (dl (S j))) in *.
  set (z := dot m (fun i => U (S j) i - w i) (fun i => Y (S j) i - l i)) in *. set (y := dot m D (wdist (S j))) in *. set (N := nrm2 m D) in *.
  assert (Eb : b = - e - rho * (z + y + N)) by lra. rewrite Eb. unfold Rdiv.
  replace (rlx * / rho * (b2 + 2 * (- e - rho * (z + y + N)) - b1)) with (rlx * / rho * b2 - 2 * rlx * / rho * e - rlx * / rho * b1 - 2 * rlx * (z + y + N)) by (field; lra).
  assert (0 <= rlx * z) by (apply Rmult_le_pos; lra). lra.
Qed.
Lemma V_nonneg j : 0 <= V j.
Proof.
  unfold V. pose proof (nrm2_nonneg m (wdist j)). pose proof (Bf_nonneg n Md Nb Mpos N_sym kap Hkap Hplus k (dl j)) as Q.
  assert (0 <= rlx / rho) by (left; apply Rdiv_lt_0_compat; lra). pose proof (Rmult_le_pos _ _ H1 Q). lra.
Qed.
Definition dec (j : nat) : R := rlx * (2 - rlx) * nrm2 m (Dl (S j)) + rlx / rho * Bf (d (S j)) (d (S j)) + 2 * rlx / rho * nrm2 mh (H (xerr (S (S j)))).
Lemma dec_parts j : 0 <= rlx * (2 - rlx) * nrm2 m (Dl (S j)) /\ 0 <= rlx / rho * Bf (d (S j)) (d (S j)) /\ 0 <= 2 * rlx / rho * nrm2 mh (H (xerr (S (S j)))).
Proof.
  assert (P : 0 < rlx / rho) by (apply Rdiv_lt_0_compat; lra). split; [|split].
  - apply Rmult_le_pos; [apply Rmult_le_pos; lra|apply nrm2_nonneg].
  - apply Rmult_le_pos; [lra|apply (Bf_nonneg n Md Nb Mpos N_sym kap Hkap Hplus)].
  - apply Rmult_le_pos; [unfold Rdiv in *; lra|apply nrm2_nonneg].
Qed.
Lemma dec_nonneg j : 0 <= dec j. Proof. pose proof (dec_parts j). unfold dec. lra. Qed.
Lemma dec_cv : Un_cv dec 0.
Proof. apply (decrement_cv (fun j => V (S j)) dec); [intros; apply V_nonneg|apply dec_nonneg|intros j; apply V_step]. Qed.
Lemma V_mono i j : (i <= j)%nat -> V (S j) <= V (S i).
Proof. intros Hij. induction Hij as [|j _ IH]; [lra|]. pose proof (V_step j). pose proof (dec_nonneg j). unfold dec in *. lra. Qed.
Lemma part_cv a (z : nat -> R) : 0 < a -> (forall j, 0 <= z j) -> (forall j, a * z j <= dec j) -> Un_cv z 0.
Proof.
  intros Ha Z0 Z1. apply (squeeze_0 z (fun j => / a * dec j) O); [|apply cv_scal_0, dec_cv]. intros j _. split; [apply Z0|].
  specialize (Z1 j). apply (Rmult_le_reg_l a); [exact Ha|]. rewrite <- Rmult_assoc, Rinv_r, Rmult_1_l by lra. exact Z1.
Qed.
Lemma D_cv : Un_cv (fun j => nrm2 m (Dl (S j))) 0.
Proof. apply (part_cv (rlx * (2 - rlx))); [apply Rmult_lt_0_compat; lra|intros; apply nrm2_nonneg|]. intros j. pose proof (dec_parts j). unfold dec. lra. Qed.
Lemma B_cv : Un_cv (fun j => Bf (d (S j)) (d (S j))) 0.
Proof.
  apply (part_cv (rlx / rho)); [apply Rdiv_lt_0_compat; lra|intros; apply (Bf_nonneg n Md Nb Mpos N_sym kap Hkap Hplus)|]. intros j. pose proof (dec_parts j). unfold dec. lra.
Qed.
Lemma H_cv : Un_cv (fun j => nrm2 mh (H (xerr (S (S j))))) 0.
Proof.
  apply (part_cv (2 * rlx / rho)); [apply Rdiv_lt_0_compat; lra|intros; apply nrm2_nonneg|]. intros j. pose proof (dec_parts j). unfold dec. lra.
Qed.
Lemma yu_bound j : nrm2 m (fun i => Y (S j) i - l i) + nrm2 m (fun i => U (S j) i - w i) <= nrm2 m (wdist (S j)).
Proof.
  pose proof (mono_y j) as Q. assert (E : nrm2 m (wdist (S j)) = nrm2 m (fun i => Y (S j) i - l i) + nrm2 m (fun i => U (S j) i - w i) + 2 * dot m (fun i => U (S j) i - w i) (fun i => Y (S j) i - l i)).
  { unfold nrm2, dot. rewrite <- sumn_scal, <- !sumn_plus. apply sumn_ext. intros i _. unfold wdist. ring. }
  rewrite E. lra.
Qed.
Lemma w_le_V j : nrm2 m (wdist j) <= V j.
Proof.
  unfold V. assert (0 < rlx / rho) by (apply Rdiv_lt_0_compat; lra). pose proof (Rmult_le_pos _ _ (Rlt_le _ _ H0) (Bf_nonneg n Md Nb Mpos N_sym kap Hkap Hplus k (dl j))). lra.
Qed.
Lemma x_bound j : kap * nrm2 n (xerr (S (S j))) <= nrm2 mh (H (xerr (S (S j)))) + 2 * rho * nrm2 m (Dl (S j)) + 2 * rho * nrm2 m (fun i => Y (S j) i - l i).
Proof.
  destruct Kt as (K1 & _ & _). eapply Rle_trans; [apply Hminus|].
  assert (Q : nrm2 m (A (xerr (S (S j)))) <= 2 * nrm2 m (Dl (S j)) + 2 * nrm2 m (fun i => Y (S j) i - l i)).
  { unfold nrm2, dot. rewrite <- !sumn_scal, <- sumn_plus. apply sumn_le. intros i Hi. rewrite linear_sub by exact HA.
    replace (A (X (S (S j))) i - A p i) with (Dl (S j) i + (Y (S j) i - l i)) by (unfold Dl; rewrite K1 by exact Hi; ring).
    pose proof (Rle_0_sqr (Dl (S j) i - (Y (S j) i - l i))) as P. unfold Rsqr in P. lra. }
  pose proof (Rmult_le_compat_l rho _ _ ltac:(lra) Q). lra.
Qed.
End lyapunov.

(** ** Convergence *)
Lemma Bf_lip : loc_lip n (fun v => Bf v v).
Proof.
  unfold JacProofs.Bf, JacProofs.mi. apply (lip_ext_fun n (fun v => sumn n (fun i => Md i * (Sop v i * pw v i)))); [intros v; apply sumn_ext; intros; ring|].
  apply (lip_sumn n n (fun i v => Md i * (Sop v i * pw v i))). intros i Hi. apply lip_scal. apply lip_mult.
  - apply (lip_linear n n Sop i (Sop_linear Md Nb HN _) (Sop_local n Md Nb Nloc _) Hi).
  - apply (lip_linear n n pw i (pw_linear Md Nb HN _) (pw_local n Md Nb Nloc _) Hi).
Qed.
Lemma sq_cv_0 (a b : nat -> R) : (forall j, a j * a j <= b j) -> Un_cv b 0 -> Un_cv a 0.
Proof.
  intros Q B. assert (B0 : forall j, 0 <= b j) by (intros j; specialize (Q j); pose proof (Rle_0_sqr (a j)) as P; unfold Rsqr in P; lra).
  pose proof (cv_sqrt_0 b B0 B) as S0. intros e He. destruct (S0 e He) as [N HN0]. exists N. intros j Hj. specialize (HN0 j Hj). unfold R_dist in *. rewrite Rminus_0_r in *.
  rewrite (Rabs_pos_eq (sqrt (b j))) in HN0 by apply sqrt_pos. eapply Rle_lt_trans; [|exact HN0]. rewrite <- sqrt_Rsqr_abs. apply sqrt_le_1; [apply Rle_0_sqr|apply B0|apply Q].
Qed.
Lemma A_cv (x : nat -> vec) q i : (forall r, (r < n)%nat -> Un_cv (fun j => x j r) (q r)) -> (i < m)%nat -> Un_cv (fun j => A (x j) i) (A q i).
Proof. intros Hx Hi. apply (lip_cv n (fun v => A v i) x q); [|exact Hx]. apply (lip_linear n m A i HA Aloc Hi). Qed.
Lemma nrm2_bound_coord q (z : vec) K i : nrm2 q z <= K -> (i < q)%nat -> Rabs (z i) <= 1 + K.
Proof. intros B Hi. pose proof (nrm2_nonneg q z). apply abs_of_sq; [lra|]. pose proof (coord_sq q z i Hi). lra. Qed.

Theorem jac_limit : (exists p, argmin (fun _ => True) objective p) -> exists p w, argmin (fun _ => True) objective p /\
  (forall i, (i < n)%nat -> Un_cv (fun j => X j i) (p i)) /\ (forall i, (i < m)%nat -> Un_cv (fun j => Y j i) (A p i - c i)) /\
  (forall i, (i < m)%nat -> Un_cv (fun j => U j i) (w i)).
Proof.
  intros [p0 Hp0]. destruct (kkt_exists p0 Hp0) as [w0 K0]. set (l0 := fun i => A p0 i - c i) in K0.
  destruct (Sop_onto n Md Nb Mpos HN Nloc N_sym kap Hkap Hplus k (fun i => X O i - p0 i) Hk) as [d0 Hd0].
  pose proof (D_cv p0 l0 w0 d0 K0 Hd0) as CD. pose proof (B_cv p0 l0 w0 d0 K0 Hd0) as CB. pose proof (H_cv p0 l0 w0 d0 K0 Hd0) as CH.
  (* bounds *)
  destruct (cv_bounded _ _ CD) as (b1 & _ & B1). destruct (cv_bounded _ _ CH) as (b2 & _ & B2). set (v1 := V l0 w0 d0 1). 
  assert (Bw : forall j, nrm2 m (wdist l0 w0 (S j)) <= v1) by (intros j; eapply Rle_trans; [apply (w_le_V l0 w0 d0)|apply (V_mono p0 l0 w0 d0 K0 Hd0 0 j); lia]).
  assert (By : forall j i, (i < m)%nat -> Rabs (Y (S j) i) <= 1 + v1 + Rabs (l0 i)).
  { intros j i Hi. pose proof (yu_bound p0 l0 w0 K0 j) as Q. specialize (Bw j). pose proof (nrm2_nonneg m (fun i => U (S j) i - w0 i)).
    pose proof (nrm2_bound_coord m (fun i => Y (S j) i - l0 i) v1 i ltac:(lra) Hi) as P. cbv beta in P. pose proof (Rabs_triang (Y (S j) i - l0 i) (l0 i)) as Tr. replace (Y (S j) i - l0 i + l0 i) with (Y (S j) i) in Tr by ring. lra. }
  assert (Bu : forall j i, (i < m)%nat -> Rabs (U (S j) i) <= 1 + v1 + Rabs (w0 i)).
  { intros j i Hi. pose proof (yu_bound p0 l0 w0 K0 j) as Q. specialize (Bw j). pose proof (nrm2_nonneg m (fun i => Y (S j) i - l0 i)).
    pose proof (nrm2_bound_coord m (fun i => U (S j) i - w0 i) v1 i ltac:(lra) Hi) as P. cbv beta in P. pose proof (Rabs_triang (U (S j) i - w0 i) (w0 i)) as Tr. replace (U (S j) i - w0 i + w0 i) with (U (S j) i) in Tr by ring. lra. }
  set (xb := / kap * (b2 + 2 * rho * b1 + 2 * rho * v1)).
  assert (Bx : forall j i, (i < n)%nat -> Rabs (X (S (S j)) i) <= 1 + xb + Rabs (p0 i)).
  { intros j i Hi. pose proof (x_bound p0 l0 w0 K0 j) as Q. pose proof (yu_bound p0 l0 w0 K0 j) as Q1. specialize (Bw j). pose proof (nrm2_nonneg m (fun i => U (S j) i - w0 i)).
    specialize (B1 j). specialize (B2 j). rewrite Rabs_pos_eq in B1, B2 by apply nrm2_nonneg.
    assert (Q2 : nrm2 n (fun i => X (S (S j)) i - p0 i) <= xb).
    { unfold xb. apply (Rmult_le_reg_l kap); [exact Hkap|]. rewrite <- Rmult_assoc, Rinv_r, Rmult_1_l by lra. eapply Rle_trans; [exact Q|].
      assert (rho * nrm2 m (Dl (S j)) <= rho * b1) by (apply Rmult_le_compat_l; lra). assert (rho * nrm2 m (fun i => Y (S j) i - l0 i) <= rho * v1) by (apply Rmult_le_compat_l; lra). lra. }
    pose proof (nrm2_bound_coord n _ xb i Q2 Hi) as P. cbv beta in P. pose proof (Rabs_triang (X (S (S j)) i - p0 i) (p0 i)) as Tr. replace (X (S (S j)) i - p0 i + p0 i) with (X (S (S j)) i) in Tr by ring. lra. }
  assert (Sx : forall q i, (i < n)%nat -> Rabs (q i) <= sumn n (fun r => Rabs (q r))) by (intros q i Hi; apply (sumn_ge_term n (fun r => Rabs (q r)) i); [intros; apply Rabs_pos|exact Hi]).
  assert (Sm : forall q i, (i < m)%nat -> Rabs (q i) <= sumn m (fun r => Rabs (q r))) by (intros q i Hi; apply (sumn_ge_term m (fun r => Rabs (q r)) i); [intros; apply Rabs_pos|exact Hi]).
  assert (P1 : forall q (z : vec), 0 <= sumn q (fun r => Rabs (z r))) by (intros; apply sumn_nonneg; intros; apply Rabs_pos).
  assert (V1 : 0 <= v1) by apply (V_nonneg l0 w0 d0).
  destruct (bwn (n + (m + m)) (fun j i => if Nat.ltb i n then X (S (S j)) i else if Nat.ltb (i - n) m then Y (S j) (i - n)%nat else U (S j) (i - n - m)%nat)
    (1 + Rabs xb + v1 + sumn n (fun r => Rabs (p0 r)) + sumn m (fun r => Rabs (l0 r)) + sumn m (fun r => Rabs (w0 r)))) as (phi & lim & Hphi & Hl).
  { intros j i Hi. pose proof (P1 n p0). pose proof (P1 m l0). pose proof (P1 m w0). pose proof (Rle_abs xb). pose proof (Rabs_pos xb). destruct (Nat.ltb_spec i n) as [L1|L1]; [|destruct (Nat.ltb_spec (i - n) m) as [L2|L2]].
    - specialize (Bx j i L1). specialize (Sx p0 i L1). lra.
    - specialize (By j _ L2). specialize (Sm l0 _ L2). lra.
    - assert (L3 : (i - n - m < m)%nat) by lia. specialize (Bu j _ L3). specialize (Sm w0 _ L3). lra. }
  set (p := lim). set (l := fun i => lim (n + i)%nat). set (w := fun i => lim (n + m + i)%nat).
  assert (Lx : forall i, (i < n)%nat -> Un_cv (fun j => X (S (S (phi j))) i) (p i)).
  { intros i Hi. generalize (Hl i ltac:(lia)). apply cv_ext. intros j. apply Nat.ltb_lt in Hi. rewrite Hi. reflexivity. }
  assert (Ly : forall i, (i < m)%nat -> Un_cv (fun j => Y (S (phi j)) i) (l i)).
  { intros i Hi. generalize (Hl (n + i)%nat ltac:(lia)). apply cv_ext. intros j. destruct (Nat.ltb_spec (n + i) n); [lia|]. replace (n + i - n)%nat with i by lia. apply Nat.ltb_lt in Hi. rewrite Hi. reflexivity. }
  assert (Lu : forall i, (i < m)%nat -> Un_cv (fun j => U (S (phi j)) i) (w i)).
  { intros i Hi. generalize (Hl (n + m + i)%nat ltac:(lia)). apply cv_ext. intros j. destruct (Nat.ltb_spec (n + m + i) n); [lia|]. destruct (Nat.ltb_spec (n + m + i - n) m); [lia|].
    replace (n + m + i - n - m)%nat with i by lia. reflexivity. }
  assert (LD : forall i, (i < m)%nat -> Un_cv (fun j => Dl (S (phi j)) i) 0).
  { intros i Hi. apply (cv_sub (fun j => Dl (S j) i) 0 phi); [|exact Hphi]. apply (cv_nrm_coord m (fun j => Dl (S j))); [|exact Hi]. apply cv_sqrt_0; [intros; apply nrm2_nonneg|exact CD]. }
  assert (Kt : kkt p l w).
  { split; [|split].
    - intros i Hi. pose proof (CV_minus _ _ _ _ (CV_minus _ _ _ _ (A_cv _ p i Lx Hi) (Ly i Hi)) (cv_const (c i))) as Q.
      pose proof (UL_sequence _ _ _ (LD i Hi) Q) as E. lra.
    - intros z. destruct (Sop_onto n Md Nb Mpos HN Nloc N_sym kap Hkap Hplus k z Hk) as [ze Hze].
      assert (Q1 : Un_cv (fun j => - Bf ze (d (S (phi j)))) 0).
      { rewrite <- Ropp_0. apply CV_opp. apply (sq_cv_0 _ (fun j => Bf ze ze * Bf (d (S (phi j))) (d (S (phi j))))); [intros j; apply (Bf_cs n Md Nb Mpos HN N_sym kap Hkap Hplus)|].
        apply (cv_scal_0 (fun j => Bf (d (S (phi j))) (d (S (phi j)))) (Bf ze ze)). apply (cv_sub (fun j => Bf (d (S j)) (d (S j))) 0 phi CB Hphi). }
      assert (Q2 : Un_cv (fun j => - Bf ze (d (S (phi j)))) (dot mh (H z) (fun i => H p i - s i) + rho * dot m (A z) (fun i => 0 + w i))).
      { apply (cv_ext (fun j => dot mh (H z) (fun i => H (X (S (S (phi j)))) i - s i) + rho * dot m (A z) (fun i => Dl (S (phi j)) i + U (S (phi j)) i))).
        - intros j. rewrite x_eq. unfold JacProofs.Bf. rewrite (mi_ext n Md (Sop ze) (pw (d (S (phi j)))) z (pw (d (S (phi j))))); [reflexivity|exact Hze|reflexivity].
        - apply CV_plus.
          + apply (cv_dot mh (fun _ => H z) (fun j i => H (X (S (S (phi j)))) i - s i)); [intros; apply cv_const|]. intros i Hi. apply CV_minus; [|apply cv_const].
            apply (lip_cv n (fun v => H v i) (fun j => X (S (S (phi j)))) p); [|exact Lx]. apply (lip_linear n mh H i HH); [intros; apply Hloc; assumption|exact Hi].
          + apply CV_mult; [apply cv_const|]. apply (cv_dot m (fun _ => A z) (fun j i => Dl (S (phi j)) i + U (S (phi j)) i)); [intros; apply cv_const|]. intros i Hi. apply CV_plus; [apply LD|apply Lu]; exact Hi. }
      pose proof (UL_sequence _ _ _ Q1 Q2) as E. rewrite (dot_ext m _ (fun i => 0 + w i) (A z) w) in E by (intros; ring). lra.
    - intros v. refine (cv_le (fun j => g (Y (S (phi j))) + rho * dot m (U (S (phi j))) (fun i => v i - Y (S (phi j)) i)) (fun _ => g v) _ _ _ _ (cv_const (g v))); [intros j; apply y_in|].
      apply CV_plus; [apply (lip_cv m g (fun j => Y (S (phi j))) l (glob_lip m g Lg HLg Gl) Ly)|]. apply CV_mult; [apply cv_const|].
      apply (cv_dot m (fun j => U (S (phi j))) (fun j i => v i - Y (S (phi j)) i)); [exact Lu|]. intros i Hi. apply CV_minus; [apply cv_const|apply Ly; exact Hi]. }
  destruct (Sop_onto n Md Nb Mpos HN Nloc N_sym kap Hkap Hplus k (fun i => X O i - p i) Hk) as [e0 He0].
  (* the Lyapunov function for the limit *)
  assert (Cd : forall i, (i < n)%nat -> Un_cv (fun j => dl e0 (S (S (phi j))) i) 0).
  { assert (Q : Un_cv (fun j => nrm2 n (dl e0 (S (S (phi j))))) 0).
    { apply (squeeze_0 _ (fun j => / (kap * kap) * sumn n (fun i => Md i * Md i * ((X (S (S (phi j))) i - p i) * (X (S (S (phi j))) i - p i)))) O).
      - intros j _. split; [apply nrm2_nonneg|]. pose proof (Sop_pos n Md Nb Mpos N_sym kap Hkap Hplus k (dl e0 (S (S (phi j)))) Hk) as Q.
        rewrite (mi_ext n Md _ (dl e0 (S (S (phi j)))) (fun i => X (S (S (phi j))) i - p i) (dl e0 (S (S (phi j))))) in Q;
          [|intros; apply dl_x; assumption|reflexivity].
        assert (Q2 : mi (fun i => X (S (S (phi j))) i - p i) (dl e0 (S (S (phi j)))) <= kap / 2 * nrm2 n (dl e0 (S (S (phi j)))) + / (2 * kap) * sumn n (fun i => Md i * Md i * ((X (S (S (phi j))) i - p i) * (X (S (S (phi j))) i - p i)))).
        { unfold JacProofs.mi, nrm2, dot. rewrite <- !sumn_scal, <- sumn_plus. apply sumn_le. intros i _. set (a := Md i * (X (S (S (phi j))) i - p i)). set (z := dl e0 (S (S (phi j))) i).
          replace (Md i * Md i * ((X (S (S (phi j))) i - p i) * (X (S (S (phi j))) i - p i))) with (a * a) by (unfold a; ring).
          assert (E3 : 0 <= / (2 * kap) * ((kap * z - a) * (kap * z - a))) by (apply Rmult_le_pos; [left; apply Rinv_0_lt_compat; lra|apply Rle_0_sqr]).
          replace (/ (2 * kap) * ((kap * z - a) * (kap * z - a))) with (kap / 2 * (z * z) + / (2 * kap) * (a * a) - a * z) in E3 by (field; lra). lra. }
        set (N := nrm2 n (dl e0 (S (S (phi j))))) in *. set (R := sumn n _) in Q2 |- *. assert (Q3 : kap / 2 * N <= / (2 * kap) * R) by lra.
        apply (Rmult_le_reg_l (kap / 2)); [lra|]. eapply Rle_trans; [exact Q3|]. apply Req_le. field. lra.
      - apply (cv_scal_0 (fun j => sumn n (fun i => Md i * Md i * ((X (S (S (phi j))) i - p i) * (X (S (S (phi j))) i - p i))))).
        replace 0 with (sumn n (fun _ => 0)) by (apply sumn_0; reflexivity). apply (cv_sumn n (fun j i => Md i * Md i * ((X (S (S (phi j))) i - p i) * (X (S (S (phi j))) i - p i)))). intros i Hi.
        replace 0 with (Md i * Md i * (0 * 0)) by ring. apply CV_mult; [apply cv_const|]. assert (Z : Un_cv (fun j => X (S (S (phi j))) i - p i) 0) by (replace 0 with (p i - p i) by ring; apply CV_minus; [apply Lx; exact Hi|apply cv_const]).
        apply CV_mult; exact Z. }
    intros i Hi. apply (cv_nrm_coord n (fun j => dl e0 (S (S (phi j))))); [|exact Hi]. apply cv_sqrt_0; [intros; apply nrm2_nonneg|exact Q]. }
  assert (Zp : Un_cv (fun j => V l w e0 (S (S (phi j)))) 0).
  { unfold V. replace 0 with (0 + rlx / rho * Bf (fun _ => 0) (fun _ => 0)).
    2:{ unfold JacProofs.Bf. rewrite (mi_ext n Md (Sop (fun _ => 0)) _ (fun _ => 0) (pw (fun _ => 0))); [unfold JacProofs.mi; rewrite (sumn_ext n _ (fun _ => 0)) by (intros; ring); rewrite sumn_0 by reflexivity; ring| |reflexivity].
        intros i _. pose proof (Sop_linear Md Nb HN (2 * k) 0 (fun _ => 0) 0 (fun _ => 0) i) as Q. cbv beta in Q. replace (fun _ : nat => 0 * 0 + 0 * 0) with (fun _ : nat => 0) in Q by (extensionality q; ring). lra. }
    apply CV_plus.
    - pose proof (cv_coord_nrm2 m (fun j => wdist l w (S (S (phi j)))) (fun _ => 0)) as Q. revert Q. intros Q.
      apply (cv_ext (fun j => nrm2 m (fun i => wdist l w (S (S (phi j))) i - 0))); [intros j; unfold nrm2, dot; apply sumn_ext; intros; ring|]. apply Q. intros i Hi.
      apply (cv_ext (fun j => wdist l w (S (phi j)) i + rlx * Dl (S (phi j)) i)); [intros j; symmetry; apply w_step; exact Hi|]. replace 0 with ((l i + w i) - (l i + w i) + rlx * 0) by ring.
      apply CV_plus; [|apply CV_mult; [apply cv_const|apply LD; exact Hi]]. unfold wdist. apply CV_minus; [|apply cv_const]. apply CV_plus; [apply Ly|apply Lu]; exact Hi.
    - apply CV_mult; [apply cv_const|]. apply (lip_cv n (fun v => Bf v v) (fun j => dl e0 (S (S (phi j)))) (fun _ => 0) Bf_lip Cd). }
  assert (ZV : Un_cv (fun j => V l w e0 (S j)) 0).
  { intros e He. destruct (Zp e He) as [N HN0]. exists (S (phi N)). intros j Hj. specialize (HN0 N ltac:(lia)). pose proof (V_mono p l w e0 Kt He0 (S (phi N)) j ltac:(lia)) as Q.
    unfold R_dist in *. rewrite Rminus_0_r in *. pose proof (V_nonneg l w e0 (S j)). pose proof (V_nonneg l w e0 (S (S (phi N)))). rewrite Rabs_pos_eq in * by assumption. lra. }
  assert (Cyu : Un_cv (fun j => nrm2 m (fun i => Y (S j) i - l i)) 0 /\ Un_cv (fun j => nrm2 m (fun i => U (S j) i - w i)) 0).
  { split; apply (squeeze_0 _ (fun j => V l w e0 (S j)) O); try exact ZV; intros j _; (split; [apply nrm2_nonneg|]); pose proof (yu_bound p l w Kt j) as Q; pose proof (w_le_V l w e0 (S j)) as Q2;
      pose proof (nrm2_nonneg m (fun i => U (S j) i - w i)); pose proof (nrm2_nonneg m (fun i => Y (S j) i - l i)); lra. }
  destruct Cyu as [Cy Cu]. exists p, w. split; [exact (kkt_argmin p l w Kt)|]. split; [|split].
  - assert (Q : Un_cv (fun j => nrm2 n (fun i => X (S (S j)) i - p i)) 0).
    { apply (squeeze_0 _ (fun j => / kap * (nrm2 mh (H (fun i => X (S (S j)) i - p i)) + 2 * rho * nrm2 m (Dl (S j)) + 2 * rho * nrm2 m (fun i => Y (S j) i - l i))) O).
      - intros j _. split; [apply nrm2_nonneg|]. apply (Rmult_le_reg_l kap); [exact Hkap|]. rewrite <- Rmult_assoc, Rinv_r, Rmult_1_l by lra. apply (x_bound p l w Kt).
      - apply (cv_scal_0 (fun j => nrm2 mh (H (fun i => X (S (S j)) i - p i)) + 2 * rho * nrm2 m (Dl (S j)) + 2 * rho * nrm2 m (fun i => Y (S j) i - l i))).
        apply (cv_plus_0 (fun j => nrm2 mh (H (fun i => X (S (S j)) i - p i)) + 2 * rho * nrm2 m (Dl (S j)))); [apply (cv_plus_0 (fun j => nrm2 mh (H (fun i => X (S (S j)) i - p i))))|].
        + exact (H_cv p l w e0 Kt He0).
        + apply (cv_scal_0 (fun j => nrm2 m (Dl (S j)))). exact CD.
        + apply (cv_scal_0 (fun j => nrm2 m (fun i => Y (S j) i - l i))). exact Cy. }
    intros i Hi. apply (cv_shift_S (fun j => X j i)). apply (cv_shift_S (fun j => X (S j) i)).
    pose proof (cv_nrm_coord n (fun j i => X (S (S j)) i - p i) (cv_sqrt_0 _ (fun j => nrm2_nonneg _ _) Q) i Hi) as P. cbv beta in P.
    pose proof (CV_plus _ _ _ _ P (cv_const (p i))) as P2. rewrite Rplus_0_l in P2. revert P2. apply cv_ext. intros j. ring.
  - intros i Hi. apply (cv_shift_S (fun j => Y j i)). destruct Kt as (K1 & _ & _). rewrite <- K1 by exact Hi.
    pose proof (cv_nrm_coord m (fun j i => Y (S j) i - l i) (cv_sqrt_0 _ (fun j => nrm2_nonneg _ _) Cy) i Hi) as P. cbv beta in P.
    pose proof (CV_plus _ _ _ _ P (cv_const (l i))) as P2. rewrite Rplus_0_l in P2. revert P2. apply cv_ext. intros j. ring.
  - intros i Hi. apply (cv_shift_S (fun j => U j i)).
    pose proof (cv_nrm_coord m (fun j i => U (S j) i - w i) (cv_sqrt_0 _ (fun j => nrm2_nonneg _ _) Cu) i Hi) as P. cbv beta in P.
    pose proof (CV_plus _ _ _ _ P (cv_const (w i))) as P2. rewrite Rplus_0_l in P2. revert P2. apply cv_ext. intros j. ring.
Qed.
End inexact.
