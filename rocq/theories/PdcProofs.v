Require Import List Arith ZArith Reals Bool Lia Lra FunctionalExtensionality.
Require Import Verif.RVec Verif.Cplx Verif.FftModel Verif.FftProofs Verif.FftInv Verif.CscModel Verif.CscSpec Verif.CscProofs Verif.CscProps Verif.CscIterModel Verif.CscIterProofs.
Require Import Verif.AdmmModel Verif.AdmmSpec Verif.AdmmProps Verif.StepsModel Verif.StepsSpec Verif.StepsProofs Verif.ProxModel Verif.PdcModel Verif.PdcSpec.
Require Verif.CcmFit Verif.RtvProofs.
Import ListNotations.
Local Open Scope R_scope.

Lemma sumn_pick n k (f : nat -> R) : (k < n)%nat -> sumn n (fun i => delta k i * f i) = f k.
Proof.
  intros H. rewrite <- (sumn_delta n k f H). apply sumn_ext. intros i _. unfold delta. rewrite (Nat.eqb_sym k i). destruct (Nat.eqb i k); ring.
Qed.
Lemma csumn_pick n k (f : nat -> C) : (k < n)%nat -> csumn n (fun i => cmul (ofR (delta k i)) (f i)) = f k.
Proof.
  intros H. rewrite <- (csumn_delta n k f H). apply csumn_ext. intros i _. unfold delta. rewrite (Nat.eqb_sym k i). destruct (Nat.eqb i k); [change (ofR 1) with c1|change (ofR 0) with c0]; ring.
Qed.
Lemma ofR_mul a b : ofR (a * b) = cmul (ofR a) (ofR b).
Proof. unfold ofR, cmul; simpl; f_equal; ring. Qed.
Lemma mat_csum n m (A : nat -> R) (B : nat -> nat -> R) (f : nat -> C) :
  csumn n (fun i => cmul (ofR (A i)) (csumn m (fun j => cmul (ofR (B i j)) (f j)))) = csumn m (fun j => cmul (ofR (sumn n (fun i => A i * B i j))) (f j)).
Proof.
  transitivity (csumn n (fun i => csumn m (fun j => cmul (cmul (ofR (A i)) (ofR (B i j))) (f j)))).
  - apply csumn_ext. intros i _. rewrite <- csumn_scal. apply csumn_ext. intros. ring.
  - rewrite csumn_swap. apply csumn_ext. intros j _. rewrite csumn_scal_r. f_equal. rewrite <- csumn_ofR. apply csumn_ext. intros. symmetry. apply ofR_mul.
Qed.

(** ** The eigenvalues of a Gram matrix are non-negative, and what follows from the decomposition. *)
Section eig.
Variables (C Cb : nat) (B : nat -> nat -> R) (G : nat -> R) (Q : nat -> nat -> R).
Hypothesis He : eigen Cb (gram C B) G Q.
Lemma gram_Q b k : (b < Cb)%nat -> (k < Cb)%nat -> sumn Cb (fun b' => gram C B b b' * Q b' k) = Q b k * G k.
Proof.
  intros Hb Hk. destruct He as (H1 & _ & H3).
  transitivity (sumn Cb (fun b' => sumn Cb (fun j => Q b j * G j * Q b' j * Q b' k))).
  { apply sumn_ext. intros b' Hb'. rewrite H3 by assumption. rewrite sumn_scal_r. reflexivity. }
  rewrite sumn_swap. rewrite <- (sumn_pick Cb k (fun j => Q b j * G j) Hk). apply sumn_ext. intros j Hj.
  rewrite <- (H1 k j Hk Hj), <- sumn_scal_r. apply sumn_ext. intros. ring.
Qed.
Lemma gamma_nonneg k : (k < Cb)%nat -> 0 <= G k.
Proof.
  intros Hk. replace (G k) with (sumn C (fun c => Rsqr (sumn Cb (fun b => B c b * Q b k)))).
  - apply sumn_nonneg. intros. apply Rle_0_sqr.
  - transitivity (sumn Cb (fun b => Q b k * (Q b k * G k))).
    + transitivity (sumn Cb (fun b => Q b k * sumn Cb (fun b' => gram C B b b' * Q b' k))); [|apply sumn_ext; intros b Hb; rewrite gram_Q by assumption; reflexivity].
      transitivity (sumn C (fun c => sumn Cb (fun b => sumn Cb (fun b' => Q b k * (B c b * B c b' * Q b' k))))).
      * apply sumn_ext. intros c _. unfold Rsqr. rewrite <- sumn_scal_r. apply sumn_ext. intros b _. rewrite <- sumn_scal. apply sumn_ext. intros. ring.
      * rewrite sumn_swap. apply sumn_ext. intros b _. rewrite sumn_swap, <- sumn_scal. apply sumn_ext. intros b' _. unfold gram. rewrite <- sumn_scal_r, <- sumn_scal. reflexivity.
    + transitivity (G k * sumn Cb (fun b => Q b k * Q b k)); [rewrite <- sumn_scal; apply sumn_ext; intros; ring|].
      destruct He as (H1 & _). rewrite H1 by assumption. unfold delta. rewrite Nat.eqb_refl. ring.
Qed.
End eig.

(** ** The system solved at one frequency. *)
Section freq.
Variables (M C Cb : nat) (B : nat -> nat -> R) (G : nat -> R) (Q : nat -> nat -> R) (a : cvec) (sc : nat -> Cplx.C) (z xh : nat -> cvec) (dl rho : R).
Hypothesis He : eigen Cb (gram C B) G Q.
Notation x := (fun b m => csumn Cb (fun b' => cmul (ofR (Q b b')) (xh b' m))).
Lemma pd_sys b m :
  (forall k, (k < Cb)%nat -> cadd (cmul (ofR (G k)) (cmul (conj (a m)) (csumn M (fun m' => cmul (a m') (xh k m'))))) (cmul (ofR dl) (xh k m))
     = cadd (csumn C (fun c => cmul (ofR (sumn Cb (fun b' => B c b' * Q b' k))) (cmul (conj (a m)) (sc c)))) (cmul (ofR rho) (csumn Cb (fun b' => cmul (ofR (Q b' k)) (z b' m))))) ->
  (b < Cb)%nat ->
  cadd (csumn C (fun c => cmul (cmul (ofR (B c b)) (conj (a m))) (csumn Cb (fun b' => cmul (ofR (B c b')) (csumn M (fun m' => cmul (a m') (x b' m'))))))) (cmul (ofR dl) (x b m))
  = cadd (csumn C (fun c => cmul (cmul (ofR (B c b)) (conj (a m))) (sc c))) (cmul (ofR rho) (z b m)).
Proof.
  intros Hx Hb. set (t := fun k => csumn M (fun m' => cmul (a m') (xh k m'))).
  assert (T : forall b', csumn M (fun m' => cmul (a m') (x b' m')) = csumn Cb (fun k => cmul (ofR (Q b' k)) (t k))).
  { intros b'. transitivity (csumn M (fun m' => csumn Cb (fun k => cmul (cmul (ofR (Q b' k)) (a m')) (xh k m')))).
    - apply csumn_ext. intros m' _. rewrite <- csumn_scal. apply csumn_ext. intros. ring.
    - rewrite csumn_swap. apply csumn_ext. intros k _. unfold t. rewrite <- csumn_scal. apply csumn_ext. intros. ring. }
  assert (L : csumn C (fun c => cmul (cmul (ofR (B c b)) (conj (a m))) (csumn Cb (fun b' => cmul (ofR (B c b')) (csumn M (fun m' => cmul (a m') (x b' m'))))))
     = csumn Cb (fun k => cmul (ofR (Q b k)) (cmul (ofR (G k)) (cmul (conj (a m)) (t k))))).
  { transitivity (cmul (conj (a m)) (csumn C (fun c => cmul (ofR (B c b)) (csumn Cb (fun b' => cmul (ofR (B c b')) (csumn M (fun m' => cmul (a m') (x b' m')))))))).
    { rewrite <- csumn_scal. apply csumn_ext. intros. ring. }
    rewrite mat_csum.
    transitivity (cmul (conj (a m)) (csumn Cb (fun b' => cmul (ofR (gram C B b b')) (csumn Cb (fun k => cmul (ofR (Q b' k)) (t k)))))).
    { f_equal. apply csumn_ext. intros b' _. rewrite T. reflexivity. }
    rewrite mat_csum, <- csumn_scal. apply csumn_ext. intros k Hk. rewrite (gram_Q C Cb B G Q He b k Hb Hk), ofR_mul. ring. }
  assert (R1 : forall y, csumn Cb (fun k => cmul (ofR (Q b k)) (csumn Cb (fun b' => cmul (ofR (Q b' k)) (y b')))) = y b).
  { intros y. rewrite mat_csum. rewrite <- (csumn_pick Cb b y Hb) at 1. apply csumn_ext. intros b' Hb'. destruct He as (_ & H2 & _). rewrite <- (H2 b b' Hb Hb'). reflexivity. }
  cbv beta in L |- *. rewrite L.
  transitivity (csumn Cb (fun k => cmul (ofR (Q b k)) (cadd (cmul (ofR (G k)) (cmul (conj (a m)) (t k))) (cmul (ofR dl) (xh k m))))).
  { rewrite <- csumn_scal, <- csumn_plus. apply csumn_ext. intros. ring. }
  transitivity (csumn Cb (fun k => cmul (ofR (Q b k)) (cadd (csumn C (fun c => cmul (ofR (sumn Cb (fun b' => B c b' * Q b' k))) (cmul (conj (a m)) (sc c)))) (cmul (ofR rho) (csumn Cb (fun b' => cmul (ofR (Q b' k)) (z b' m))))))).
  { apply csumn_ext. intros k Hk. f_equal. apply Hx. exact Hk. }
  transitivity (cadd (csumn Cb (fun k => cmul (ofR (Q b k)) (csumn Cb (fun b' => cmul (ofR (Q b' k)) (csumn C (fun c => cmul (ofR (B c b')) (cmul (conj (a m)) (sc c))))))))
                     (cmul (ofR rho) (csumn Cb (fun k => cmul (ofR (Q b k)) (csumn Cb (fun b' => cmul (ofR (Q b' k)) (z b' m))))))).
  { rewrite <- csumn_scal, <- csumn_plus. apply csumn_ext. intros k _.
    rewrite (mat_csum Cb C (fun b' => Q b' k) (fun b' c => B c b')).
    rewrite (csumn_ext C (fun j => cmul (ofR (sumn Cb (fun i => Q i k * B j i))) (cmul (conj (a m)) (sc j))) (fun c => cmul (ofR (sumn Cb (fun b' => B c b' * Q b' k))) (cmul (conj (a m)) (sc c)))).
    - ring.
    - intros c _. do 2 f_equal. apply sumn_ext. intros. ring. }
  rewrite (R1 (fun b' => csumn C (fun c => cmul (ofR (B c b')) (cmul (conj (a m)) (sc c))))), (R1 (fun b' => z b' m)). f_equal. apply csumn_ext. intros. ring.
Qed.
End freq.

(** ** The product dictionary as a multi-channel dictionary with Cb * M filters. *)
Definition pdict (M : nat) (D : nat -> index -> R) (B : nat -> nat -> R) : nat -> nat -> index -> R := fun c k p => B c (k / M)%nat * D (k mod M)%nat p.
Definition unflat {A : Type} (M : nat) (X : nat -> nat -> (nat -> nat) -> A) : nat -> (nat -> nat) -> A := fun k => X (k / M)%nat (k mod M).
Section prod.
Variables (s dsh : nat -> nat) (axes : list nat) (M C Cb : nat) (D : nat -> index -> R) (B : nat -> nat -> R) (S : nat -> index -> R).
Hypothesis Hne : axes <> [].
Lemma pdict_Df c k i : Df s dsh axes (pdict M D B) c k i = cmul (ofR (B c (k / M)%nat)) (pd_Df s dsh axes D (k mod M) i).
Proof.
  unfold Df, pd_Df. transitivity (rfftn s axes (fun p => B c (k / M)%nat * padR dsh axes (D (k mod M)) p + 0 * padR dsh axes (D (k mod M)) p) i).
  - apply (f_equal (fun h => rfftn s axes h i)). extensionality p. unfold padR, pdict. match goal with |- context[if ?b then _ else _] => destruct b end; ring.
  - rewrite CcmFit.rfftn_lin by exact Hne. change (ofR 0) with c0. ring.
Qed.
Hypothesis HM : (0 < M)%nat.
Lemma pd_synth_unflat X c p : pd_synth s dsh axes M Cb D B X c p = synth s dsh axes (Cb * M) (pdict M D B) (unflat M X) c p.
Proof.
  unfold pd_synth, synth. rewrite sumn_flat by exact HM. apply sumn_ext. intros b _. rewrite <- sumn_scal. apply sumn_ext. intros m Hm.
  unfold unflat. rewrite div_at, mod_at by exact Hm. unfold conv.
  rewrite <- (Rplus_0_r (B c b * _)), <- (Rmult_0_l (total s axes (fun _ => 0) p)), <- total_lin. apply (f_equal (fun h => total s axes h p)). extensionality k.
  unfold ext, pdict. rewrite div_at, mod_at by exact Hm. match goal with |- context[if ?b then _ else _] => destruct b end; ring.
Qed.
Lemma pd_fit_unflat X base : pd_fit s dsh axes M C Cb D B S X base = datafit s dsh axes (Cb * M) C (pdict M D B) S (unflat M X) base.
Proof.
  unfold pd_fit, datafit. f_equal. apply sumn_ext. intros c _. apply (f_equal (fun h => sqn s axes h base)). extensionality p. rewrite pd_synth_unflat. reflexivity.
Qed.
Lemma pd_dist_unflat X Z base : pd_dist s axes M Cb X Z base = sumn (Cb * M) (fun k => sqn s axes (fun p => unflat M X k p - unflat M Z k p) base).
Proof.
  unfold pd_dist. rewrite sumn_flat by exact HM. apply sumn_ext. intros b _. apply sumn_ext. intros m Hm. unfold unflat. rewrite div_at, mod_at by exact Hm. reflexivity.
Qed.
Lemma unflat_chan (X : nat -> index -> R) k : unflat M (chan M X) k = X k.
Proof. unfold unflat, chan. f_equal. pose proof (Nat.div_mod k M ltac:(lia)). lia. Qed.

(** The state of the solver: the eigendecomposition and DSfBQ belong to the current dictionaries. *)
Variable st : pd_fac.
Hypothesis EB : f_B st = B.
Hypothesis ED : f_D st = D.
Hypothesis Eq : f_DSfBQ st = pd_DSfBQ s dsh axes C Cb S D B (f_Q st).
Hypothesis He : eigen Cb (gram C B) (f_Gamma st) (f_Q st).
Lemma pd_solves rho Y U i k : 0 < rho -> (k < Cb * M)%nat ->
  sys (Cb * M) C (fun c k => Df s dsh axes (pdict M D B) c k i) (fun _ => 0 + rho) (fun k => unflat M (pd_xstepf s dsh axes M Cb st rho Y U) k i) k
  = rhs C (fun c k => Df s dsh axes (pdict M D B) c k i) rho (fun c => Sf s axes S c i) (fun k => rfftn s axes (unflat M (fun b m p => Y b m p - U b m p) k) i) k.
Proof.
  intros Hr Hk. set (b := (k / M)%nat). set (m := (k mod M)%nat).
  assert (Hb : (b < Cb)%nat) by (unfold b; apply Nat.div_lt_upper_bound; lia). assert (Hm : (m < M)%nat) by (unfold m; apply Nat.mod_upper_bound; lia).
  pose proof (pd_sys M C Cb B (f_Gamma st) (f_Q st) (fun m => pd_Df s dsh axes D m i) (fun c => pd_Sf s axes S c i)
    (fun b m => rfftn s axes (fun p => Y b m p - U b m p) i) (fun b m => pd_Xh s dsh axes M Cb st rho Y U b m i) rho rho He b m) as H.
  unfold sys, rhs, app.
  replace (csumn C (fun c => cmul (conj (Df s dsh axes (pdict M D B) c k i)) (Sf s axes S c i)))
     with (csumn C (fun c => cmul (cmul (ofR (B c b)) (conj (pd_Df s dsh axes D m i))) (pd_Sf s axes S c i))).
  2: { apply csumn_ext. intros c _. rewrite pdict_Df, conj_mul, conj_ofR. reflexivity. }
  replace (unflat M (fun b m p => Y b m p - U b m p) k) with (fun p => Y b m p - U b m p) by reflexivity.
  rewrite <- H; [|clear H|exact Hb].
  - f_equal.
    + apply csumn_ext. intros c _. rewrite pdict_Df, conj_mul, conj_ofR. fold b. fold m. f_equal. rewrite RtvProofs.csumn_flat by exact HM. apply csumn_ext. intros b' _.
      rewrite <- csumn_scal. apply csumn_ext. intros m' Hm'. rewrite pdict_Df. unfold unflat. rewrite div_at, mod_at by exact Hm'. unfold pd_xstepf. ring.
    + rewrite Rplus_0_l. reflexivity.
  - intros q Hq. set (ah := fun k => gDf s dsh axes st q k i).
    pose proof (dbi_sys M (fun _ => rho) (fun _ _ => Hr) ah rho (fun k => cadd (f_DSfBQ st q k i) (cmul (ofR rho) (csumn Cb (fun b' => cmul (ofR (f_Q st b' q)) (rfftn s axes (fun p => Y b' k p - U b' k p) i))))) m (fun _ _ => eq_refl) Hm) as E.
    rewrite Eq in E. unfold pd_DSfBQ in E at 2. cbv beta in E. rewrite <- E. unfold sys. rewrite csumn_S, csumn_O.
    change (dbi_sm M ah rho (fun k => cadd (f_DSfBQ st q k i) (cmul (ofR rho) (csumn Cb (fun b' => cmul (ofR (f_Q st b' q)) (rfftn s axes (fun p => Y b' k p - U b' k p) i))))))
      with (fun m => pd_Xh s dsh axes M Cb st rho Y U q m i).
    rewrite <- Eq.
    change (dbi_sm M ah rho (fun k => cadd (f_DSfBQ st q k i) (cmul (ofR rho) (csumn Cb (fun b' => cmul (ofR (f_Q st b' q)) (rfftn s axes (fun p => Y b' k p - U b' k p) i))))))
      with (fun m => pd_Xh s dsh axes M Cb st rho Y U q m i).
    assert (G0 : 0 <= f_Gamma st q) by (eapply gamma_nonneg; [exact He|exact Hq]).
    unfold app, ah, gDf. rewrite ED, conj_mul, conj_ofR.
    transitivity (cadd (cmul (cmul (ofR (sqrt (f_Gamma st q))) (ofR (sqrt (f_Gamma st q)))) (cmul (conj (pd_Df s dsh axes D m i)) (csumn M (fun m' => cmul (pd_Df s dsh axes D m' i) (pd_Xh s dsh axes M Cb st rho Y U q m' i))))) (cmul (ofR rho) (pd_Xh s dsh axes M Cb st rho Y U q m i))).
    + rewrite <- ofR_mul, sqrt_sqrt by exact G0. reflexivity.
    + replace (csumn M (fun m0 => cmul (cmul (ofR (sqrt (f_Gamma st q))) (pd_Df s dsh axes D m0 i)) (pd_Xh s dsh axes M Cb st rho Y U q m0 i)))
        with (cmul (ofR (sqrt (f_Gamma st q))) (csumn M (fun m' => cmul (pd_Df s dsh axes D m' i) (pd_Xh s dsh axes M Cb st rho Y U q m' i)))) by (rewrite <- csumn_scal; apply csumn_ext; intros; ring).
      ring.
Qed.
End prod.

(** ** The y step of the joint solver. *)
Section joint.
Variables (N Cb : nat) (z : nat -> bool) (lam mu rho : R) (wl1 ax u p : vec).
Hypothesis HN : (0 < N)%nat.
Hypothesis Hz : forall b j, (b < Cb)%nat -> (j < N)%nat -> z (b * N + j)%nat = z j.
Hypothesis Hl : 0 <= lam.
Hypothesis Hm : 0 <= mu.
Hypothesis Hr : 0 < rho.
Hypothesis Hw : forall i, (i < Cb * N)%nat -> 0 <= wl1 i.
Notation v := (fun i => ax i + u i).
Notation a := (fun i => lam / rho * wl1 i).
Hypothesis Hp : forall b j, (b < Cb)%nat -> (j < N)%nat ->
  p (b * N + j)%nat = if z j then 0 else prox_l2 Cb (prox_l1 (fun b => v (b * N + j)%nat) (fun b => a (b * N + j)%nat)) (mu / rho) b.
Lemma sum_groups (f : nat -> R) : sumn (Cb * N) f = sumn N (fun j => sumn Cb (fun b => f (b * N + j)%nat)).
Proof. rewrite sumn_flat by exact HN. apply sumn_swap. Qed.
Lemma joint_masked : masked (Cb * N) z false p.
Proof.
  split; [discriminate|]. intros i Hi Hzi. assert (Hj : (i mod N < N)%nat) by (apply Nat.mod_upper_bound; lia). assert (Hb : (i / N < Cb)%nat) by (apply Nat.div_lt_upper_bound; lia).
  assert (E : i = (i / N * N + i mod N)%nat) by (pose proof (Nat.div_mod i N ltac:(lia)); lia). rewrite E in Hzi |- *. rewrite Hz in Hzi by assumption. rewrite Hp, Hzi by assumption. reflexivity.
Qed.
Lemma joint_groups_y : subgradient (Cb * N) (masked (Cb * N) z false) (fun y => l1reg (Cb * N) lam wl1 y + l2_groups Cb N mu y) p (fun i => rho * (ax i + u i - p i)).
Proof.
  intros y [_ Hy]. assert (Ir : 0 < / rho) by (apply Rinv_0_lt_compat; exact Hr).
  assert (F : forall x, l1reg (Cb * N) lam wl1 x + l2_groups Cb N mu x =
     rho * sumn N (fun j => sumn Cb (fun b => a (b * N + j)%nat * Rabs (x (b * N + j)%nat)) + mu / rho * nrm Cb (fun b => x (b * N + j)%nat))).
  { intros x. unfold l1reg, l2_groups. rewrite sum_groups, <- !sumn_scal, <- sumn_plus. apply sumn_ext. intros j Hj. rewrite Rmult_plus_distr_l. f_equal; [|field; lra].
    rewrite <- !sumn_scal. apply sumn_ext. intros b Hb. rewrite Rabs_mult, (Rabs_pos_eq (wl1 _)) by (apply Hw; nia). field. lra. }
  rewrite !F. unfold dot. rewrite sum_groups.
  rewrite (sumn_ext N (fun j => sumn Cb (fun b => rho * (ax (b * N + j)%nat + u (b * N + j)%nat - p (b * N + j)%nat) * (y (b * N + j)%nat - p (b * N + j)%nat)))
     (fun j => rho * sumn Cb (fun b => (ax (b * N + j)%nat + u (b * N + j)%nat - p (b * N + j)%nat) * (y (b * N + j)%nat - p (b * N + j)%nat)))) by (intros; rewrite <- sumn_scal; apply sumn_ext; intros; ring).
  rewrite sumn_scal, <- Rmult_plus_distr_l, <- sumn_plus. apply Rmult_le_compat_l; [lra|]. apply sumn_le. intros j Hj.
  destruct (z j) eqn:Ez.
  - assert (P0 : forall b, (b < Cb)%nat -> p (b * N + j)%nat = 0) by (intros b Hb; rewrite Hp, Ez by assumption; reflexivity).
    assert (Y0 : forall b, (b < Cb)%nat -> y (b * N + j)%nat = 0) by (intros b Hb; apply Hy; [nia|rewrite Hz by assumption; exact Ez]).
    rewrite (sumn_0 Cb (fun b => (ax (b * N + j)%nat + u (b * N + j)%nat - p (b * N + j)%nat) * (y (b * N + j)%nat - p (b * N + j)%nat))) by (intros b Hb; rewrite P0, Y0 by exact Hb; ring).
    rewrite (sumn_ext Cb (fun b => a (b * N + j)%nat * Rabs (p (b * N + j)%nat)) (fun b => a (b * N + j)%nat * Rabs (y (b * N + j)%nat))) by (intros b Hb; rewrite P0, Y0 by exact Hb; reflexivity).
    rewrite (nrm_ext Cb (fun b => p (b * N + j)%nat) (fun b => y (b * N + j)%nat)) by (intros b Hb; rewrite P0, Y0 by exact Hb; reflexivity). lra.
  - pose proof (sl1l2_group Cb (fun b => v (b * N + j)%nat) (fun b => a (b * N + j)%nat) (mu / rho)) as G. cbv zeta in G.
    assert (Ga : forall b, (b < Cb)%nat -> 0 <= a (b * N + j)%nat) by (intros b Hb; apply Rmult_le_pos; [apply Rmult_le_pos; lra|apply Hw; nia]).
    specialize (G Ga ltac:(apply Rmult_le_pos; lra) (fun b => y (b * N + j)%nat)). cbv beta in G.
    assert (P0 : forall b, (b < Cb)%nat -> prox_l2 Cb (prox_l1 (fun b => v (b * N + j)%nat) (fun b => a (b * N + j)%nat)) (mu / rho) b = p (b * N + j)%nat) by (intros b Hb; rewrite Hp, Ez by assumption; reflexivity).
    rewrite (nrm_ext Cb _ (fun b => p (b * N + j)%nat) P0) in G. unfold dot in G.
    rewrite (sumn_ext Cb _ (fun b => a (b * N + j)%nat * Rabs (p (b * N + j)%nat))) in G by (intros b Hb; rewrite (P0 b Hb); reflexivity).
    rewrite (sumn_ext Cb (fun i => (ax (i * N + j)%nat + u (i * N + j)%nat - _) * _) (fun b => (ax (b * N + j)%nat + u (b * N + j)%nat - p (b * N + j)%nat) * (y (b * N + j)%nat - p (b * N + j)%nat))) in G by (intros b Hb; rewrite (P0 b Hb); reflexivity).
    cbv beta in *. lra.
Qed.
End joint.
Lemma l2_groups_convex (E : vec -> Prop) Cb N mu : 0 <= mu -> (forall x y t, E x -> E y -> 0 <= t <= 1 -> E (seg x y t)) -> convex_on E (l2_groups Cb N mu).
Proof.
  intros Hl HD x y t Dx Dy Ht. split; [apply HD; assumption|]. unfold l2_groups.
  assert (K : sumn N (fun j => nrm Cb (fun b => seg x y t (b * N + j)%nat)) <= sumn N (fun j => nrm Cb (fun b => x (b * N + j)%nat))
     + t * (sumn N (fun j => nrm Cb (fun b => y (b * N + j)%nat)) - sumn N (fun j => nrm Cb (fun b => x (b * N + j)%nat)))).
  { rewrite <- sumn_minus, <- sumn_scal, <- sumn_plus. apply sumn_le. intros j _. apply (nrm_convex Cb (fun b => x (b * N + j)%nat) (fun b => y (b * N + j)%nat) t Ht). }
  nra.
Qed.
