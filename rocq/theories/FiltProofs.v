Require Import List Arith ZArith Reals Lra Lia Bool FunctionalExtensionality.
Require Import Verif.RVec Verif.Cplx Verif.FftModel Verif.FftProofs Verif.FiltModel.
Import ListNotations.
Local Open Scope R_scope.

(** ** One-dimensional facts *)
Lemma dft_idft n h k : (k < n)%nat -> dft n (idft n h) k = h k.
Proof.
  intros Hk. assert (Hn : (0 < n)%nat) by lia. unfold dft, idft.
  rewrite (csumn_ext n _ (fun j => cscal (/ INR n) (csumn n (fun m => cmul (h m) (ru n (Z.of_nat j * (Z.of_nat m - Z.of_nat k))))))).
  - rewrite <- cscal_csumn, csumn_swap.
    rewrite (csumn_ext n _ (fun m => if Nat.eqb m k then cmul (h m) (ofR (INR n)) else c0)).
    + rewrite csumn_delta by exact Hk. pose proof (INR_pos n Hn). destruct (h k) as [a b]. unfold cscal, cmul, ofR, re, im. simpl. f_equal; field; lra.
    + intros m Hm. rewrite csumn_scal, ru_orth by assumption. destruct (Nat.eqb m k); [reflexivity|ring].
  - intros j Hj. rewrite !cscal_mul. rewrite <- (Ring_theory.Rmul_assoc C_ring). f_equal. rewrite <- csumn_scal_r. apply csumn_ext. intros m Hm.
    replace (Z.of_nat j * (Z.of_nat m - Z.of_nat k))%Z with (Z.of_nat j * Z.of_nat m + - (Z.of_nat j * Z.of_nat k))%Z by ring. rewrite ru_add. ring.
Qed.
Definition nxt (n j : nat) : nat := ((j + 1) mod n)%nat.
Definition prv (n j : nat) : nat := ((j + n - 1) mod n)%nat.
Lemma nxt_lt n j : (0 < n)%nat -> (nxt n j < n)%nat. Proof. intros. apply Nat.mod_upper_bound. lia. Qed.
Lemma prv_lt n j : (0 < n)%nat -> (prv n j < n)%nat. Proof. intros. apply Nat.mod_upper_bound. lia. Qed.
Lemma sumn_nxt n f : sumn n (fun j => f (nxt n j)) = sumn n f.
Proof.
  destruct n as [|n]; [reflexivity|]. rewrite (sumn_first n f). unfold nxt. cbn [sumn].
  replace ((n + 1) mod S n)%nat with O by (replace (n + 1)%nat with (1 * S n)%nat by lia; symmetry; apply Nat.mod_mul; lia).
  rewrite (sumn_ext n _ (fun j => f (S j))) by (intros j Hj; rewrite Nat.mod_small by lia; f_equal; lia). ring.
Qed.
Lemma prv_nxt n j : (j < n)%nat -> prv n (nxt n j) = j.
Proof.
  intros H. unfold prv, nxt. destruct (Nat.eq_dec (j + 1) n) as [E|E].
  - rewrite E, Nat.mod_same by lia. rewrite Nat.mod_small by lia. lia.
  - rewrite (Nat.mod_small (j + 1)) by lia. replace (j + 1 + n - 1)%nat with (j + 1 * n)%nat by lia. rewrite Nat.mod_add by lia. apply Nat.mod_small, H.
Qed.
Lemma nxt_prv n j : (j < n)%nat -> nxt n (prv n j) = j.
Proof.
  intros H. unfold prv, nxt. destruct (Nat.eq_dec j 0) as [E|E].
  - subst. rewrite (Nat.mod_small (0 + n - 1)) by lia. replace (0 + n - 1 + 1)%nat with n by lia. apply Nat.mod_same. lia.
  - replace (j + n - 1)%nat with (j - 1 + 1 * n)%nat by lia. rewrite Nat.mod_add by lia. rewrite (Nat.mod_small (j - 1)) by lia. replace (j - 1 + 1)%nat with j by lia. apply Nat.mod_small, H.
Qed.
Lemma sumn_prv n f : sumn n (fun j => f (prv n j)) = sumn n f.
Proof. rewrite <- (sumn_nxt n (fun j => f (prv n j))). apply sumn_ext. intros j Hj. rewrite prv_nxt by exact Hj. reflexivity. Qed.
Lemma csumn_nxt n f : csumn n (fun j => f (nxt n j)) = csumn n f.
Proof. unfold csumn. f_equal; [apply (sumn_nxt n (fun j => re (f j)))|apply (sumn_nxt n (fun j => im (f j)))]. Qed.
Lemma csumn_prv n f : csumn n (fun j => f (prv n j)) = csumn n f.
Proof. unfold csumn. f_equal; [apply (sumn_prv n (fun j => re (f j)))|apply (sumn_prv n (fun j => im (f j)))]. Qed.
Lemma ru_nxt n j k : (0 < n)%nat -> ru n (- (Z.of_nat (nxt n j) * k)) = ru n (- ((Z.of_nat j + 1) * k)).
Proof.
  intros H. apply ru_mod; [exact H|]. unfold nxt. rewrite Nat2Z.inj_mod. replace (Z.of_nat (j + 1)) with (Z.of_nat j + 1)%Z by lia.
  rewrite <- !Z.mul_opp_r. apply Zmult_mod_idemp_l.
Qed.
Lemma dft_nxt n x k : (0 < n)%nat -> dft n (fun j => x (nxt n j)) k = cmul (ru n (Z.of_nat k)) (dft n x k).
Proof.
  intros H. unfold dft. rewrite <- csumn_scal. rewrite <- (csumn_nxt n (fun j => cmul (ru n (Z.of_nat k)) _)). apply csumn_ext. intros j Hj.
  rewrite ru_nxt by exact H. replace (- (Z.of_nat j * Z.of_nat k))%Z with (Z.of_nat k + - ((Z.of_nat j + 1) * Z.of_nat k))%Z by ring. rewrite ru_add. ring.
Qed.
Lemma dft_prv n x k : (0 < n)%nat -> dft n (fun j => x (prv n j)) k = cmul (ru n (- Z.of_nat k)) (dft n x k).
Proof.
  intros H. transitivity (cmul (ru n (- Z.of_nat k)) (cmul (ru n (Z.of_nat k)) (dft n (fun j => x (prv n j)) k))).
  - pose proof (ru_inv n (Z.of_nat k)) as E. transitivity (cmul (cmul (ru n (Z.of_nat k)) (ru n (- Z.of_nat k))) (dft n (fun j => x (prv n j)) k)); [rewrite E; ring|ring].
  - f_equal. rewrite <- dft_nxt by exact H. apply dft_ext. intros j Hj. rewrite prv_nxt by exact Hj. reflexivity.
Qed.
Lemma dft_add n x y k : dft n (fun j => cadd (x j) (y j)) k = cadd (dft n x k) (dft n y k).
Proof. unfold dft. rewrite <- csumn_plus. apply csumn_ext. intros. ring. Qed.
Lemma dft_scal n c x k : dft n (fun j => cmul c (x j)) k = cmul c (dft n x k).
Proof. unfold dft. rewrite <- csumn_scal. apply csumn_ext. intros. ring. Qed.

(** ** Two axes *)
Section two.
Variable s : nat -> nat.
Hypothesis S0 : (2 <= s 0%nat)%nat.
Hypothesis S1 : (2 <= s 1%nat)%nat.
Notation F := (fftn s [0; 1]%nat).
Notation IF := (ifftn s [0; 1]%nat).
Definition rng (idx : index) : Prop := (idx 0 < s 0)%nat /\ (idx 1 < s 1)%nat.
Lemma F_def x idx : F x idx = dft (s 0%nat) (fun j => dft (s 1%nat) (fun l => x (upd (upd idx 0 j) 1 l)) (idx 1%nat)) (idx 0%nat).
Proof. reflexivity. Qed.
Lemma F_ext x y idx : (forall i, rng i -> (forall ax, (2 <= ax)%nat -> i ax = idx ax) -> x i = y i) -> F x idx = F y idx.
Proof.
  intros H. rewrite !F_def. apply dft_ext. intros j Hj. apply dft_ext. intros l Hl. apply H.
  - split; unfold upd; simpl; lia.
  - intros ax Hax. rewrite !upd_other by lia. reflexivity.
Qed.
Lemma F_add x y idx : F (fun i => cadd (x i) (y i)) idx = cadd (F x idx) (F y idx).
Proof. rewrite !F_def, <- dft_add. apply dft_ext. intros j _. apply dft_add. Qed.
Lemma F_scal c x idx : F (fun i => cmul c (x i)) idx = cmul c (F x idx).
Proof. rewrite !F_def, <- dft_scal. apply dft_ext. intros j _. apply dft_scal. Qed.
Definition at_nxt (ax : nat) (i : index) : index := upd i ax (nxt (s ax) (i ax)).
Definition at_prv (ax : nat) (i : index) : index := upd i ax (prv (s ax) (i ax)).
Lemma F_nxt ax x idx : (ax < 2)%nat -> F (fun i => x (at_nxt ax i)) idx = cmul (ru (s ax) (Z.of_nat (idx ax))) (F x idx).
Proof.
  intros H. rewrite !F_def. destruct ax as [|[|ax]]; [| |lia].
  - rewrite <- dft_nxt by lia. apply dft_ext. intros j _. apply dft_ext. intros l _. f_equal. unfold at_nxt. extensionality b. unfold upd. simpl. destruct b as [|[|b]]; reflexivity.
  - rewrite <- dft_scal. apply dft_ext. intros j _. rewrite <- dft_nxt by lia. apply dft_ext. intros l _. f_equal. unfold at_nxt. extensionality b. unfold upd. simpl. destruct b as [|[|b]]; reflexivity.
Qed.
Lemma F_prv ax x idx : (ax < 2)%nat -> F (fun i => x (at_prv ax i)) idx = cmul (ru (s ax) (- Z.of_nat (idx ax))) (F x idx).
Proof.
  intros H. rewrite !F_def. destruct ax as [|[|ax]]; [| |lia].
  - rewrite <- dft_prv by lia. apply dft_ext. intros j _. apply dft_ext. intros l _. f_equal. unfold at_prv. extensionality b. unfold upd. simpl. destruct b as [|[|b]]; reflexivity.
  - rewrite <- dft_scal. apply dft_ext. intros j _. rewrite <- dft_prv by lia. apply dft_ext. intros l _. f_equal. unfold at_prv. extensionality b. unfold upd. simpl. destruct b as [|[|b]]; reflexivity.
Qed.
Lemma F_IF h idx : rng idx -> F (IF h) idx = h idx.
Proof.
  intros [R0 R1]. rewrite F_def.
  (* move the sum over axis 1 inside *)
  transitivity (dft (s 0%nat) (fun j => idft (s 0%nat) (fun k => h (upd idx 0 k)) j) (idx 0%nat)); [|rewrite dft_idft by exact R0; rewrite upd_self; reflexivity].
  apply dft_ext. intros j _.
  change (IF h) with (idft_ax s 0 (idft_ax s 1 h)). unfold idft_ax at 1.
  assert (E : forall l, idft (s 0%nat) (fun k => idft_ax s 1 h (upd (upd (upd idx 0 j) 1 l) 0 k)) (upd (upd idx 0 j) 1 l 0%nat) =
                    idft (s 0%nat) (fun k => idft (s 1%nat) (fun m => h (upd (upd idx 0 k) 1 m)) l) j).
  { intros l. replace (upd (upd idx 0 j) 1 l 0%nat) with j by reflexivity. apply idft_ext. intros k _. unfold idft_ax. replace (upd (upd (upd idx 0 j) 1 l) 0 k 1%nat) with l by reflexivity.
    apply idft_ext. intros m _. f_equal. extensionality b. unfold upd. destruct b as [|[|b]]; reflexivity. }
  rewrite (dft_ext _ _ _ _ (fun l _ => E l)).
  unfold dft at 1. rewrite (csumn_ext _ _ (fun l => idft (s 0%nat) (fun k => cmul (idft (s 1%nat) (fun m => h (upd (upd idx 0 k) 1 m)) l) (ru (s 1%nat) (- (Z.of_nat l * Z.of_nat (idx 1%nat))))) j)).
  - rewrite <- (idft_linear (s 0%nat) (s 1%nat) (fun l k => cmul (idft (s 1%nat) (fun m => h (upd (upd idx 0 k) 1 m)) l) (ru (s 1%nat) (- (Z.of_nat l * Z.of_nat (idx 1%nat)))))).
    apply idft_ext. intros k _. fold (dft (s 1%nat) (idft (s 1%nat) (fun m => h (upd (upd idx 0 k) 1 m))) (idx 1%nat)). rewrite dft_idft by exact R1. f_equal. extensionality b. unfold upd. destruct b as [|[|b]]; reflexivity.
  - intros l _. unfold idft at 1 3. rewrite !cscal_mul. rewrite <- (Ring_theory.Rmul_assoc C_ring). f_equal. rewrite <- csumn_scal_r. apply csumn_ext. intros k _. ring.
Qed.
Lemma IF_F y idx : rng idx -> IF (F y) idx = y idx.
Proof.
  intros [R0 R1]. replace (F y) with (dft_ax s 1 (dft_ax s 0 y)) by (apply dft_ax_comm; lia).
  change (IF (dft_ax s 1 (dft_ax s 0 y)) idx) with (idft (s 0%nat) (fun k => idft_ax s 1 (dft_ax s 1 (dft_ax s 0 y)) (upd idx 0 k)) (idx 0%nat)).
  rewrite (idft_ext _ _ (dft (s 0%nat) (fun j => y (upd idx 0 j)))); [rewrite idft_dft by exact R0; rewrite upd_self; reflexivity|].
  intros k _. unfold idft_ax. replace (upd idx 0 k 1%nat) with (idx 1%nat) by reflexivity.
  rewrite (idft_ext _ _ (dft (s 1%nat) (fun j => dft_ax s 0 y (upd (upd idx 0 k) 1 j)))).
  - rewrite idft_dft by exact R1. replace (upd (upd idx 0 k) 1 (idx 1%nat)) with (upd idx 0 k) by (extensionality b; unfold upd; destruct b as [|[|b]]; reflexivity).
    unfold dft_ax. rewrite upd_same. apply dft_ext. intros j _. rewrite upd_upd. reflexivity.
  - intros j _. unfold dft_ax at 1. rewrite upd_same. apply dft_ext. intros m _. rewrite upd_upd. reflexivity.
Qed.
Lemma F_inj x y : (forall idx, F x idx = F y idx) -> forall idx, rng idx -> x idx = y idx.
Proof. intros H idx R. rewrite <- (IF_F x idx R), <- (IF_F y idx R). f_equal. extensionality i. apply H. Qed.
Lemma F_inj_at x y (idx : index) : (forall i, rng i -> (forall ax, (2 <= ax)%nat -> i ax = idx ax) -> F x i = F y i) -> rng idx -> x idx = y idx.
Proof.
  intros H R. rewrite <- (IF_F x idx R), <- (IF_F y idx R).
  change (idft (s 0%nat) (fun k => idft (s 1%nat) (fun l => F x (upd (upd idx 0 k) 1 l)) (upd idx 0 k 1%nat)) (idx 0%nat) =
          idft (s 0%nat) (fun k => idft (s 1%nat) (fun l => F y (upd (upd idx 0 k) 1 l)) (upd idx 0 k 1%nat)) (idx 0%nat)).
  apply idft_ext. intros k Hk. apply idft_ext. intros l Hl. apply H; [split; unfold upd; simpl; lia|]. intros ax Hax. rewrite !upd_other by lia. reflexivity.
Qed.

(** ** The filters *)
Lemma dft_pair n (a b : C) k : (2 <= n)%nat -> dft n (fun j => if (j =? 0)%nat then a else if (j =? 1)%nat then b else c0) k = cadd a (cmul b (ru n (- Z.of_nat k))).
Proof.
  intros Hn. destruct n as [|[|n]]; [lia|lia|]. unfold dft. rewrite csumn_first, csumn_first. rewrite (csumn_0 n) by (intros; simpl; ring). simpl Nat.eqb. cbv iota.
  change (Z.of_nat 0 * Z.of_nat k)%Z with 0%Z. replace (Z.of_nat 1 * Z.of_nat k)%Z with (Z.of_nat k) by lia. change (- 0)%Z with 0%Z. rewrite ru_0. ring.
Qed.
Lemma dft_single n (a : C) k : (1 <= n)%nat -> dft n (fun j => if (j =? 0)%nat then a else c0) k = a.
Proof.
  intros Hn. destruct n as [|n]; [lia|]. unfold dft. rewrite csumn_first. rewrite (csumn_0 n) by (intros; simpl; ring). simpl Nat.eqb. cbv iota.
  change (Z.of_nat 0 * Z.of_nat k)%Z with 0%Z. change (- 0)%Z with 0%Z. rewrite ru_0. ring.
Qed.
Lemma dft_zero n k : dft n (fun _ => c0) k = c0.
Proof. unfold dft. apply csumn_0. intros. ring. Qed.
Lemma Gf_val ax idx : (ax < 2)%nat -> Gf s ax idx = cadd (copp c1) (ru (s ax) (- Z.of_nat (idx ax))).
Proof.
  intros H. unfold Gf. rewrite F_def. destruct ax as [|[|ax]]; [| |lia].
  - rewrite (dft_ext _ _ (fun j => if (j =? 0)%nat then copp c1 else if (j =? 1)%nat then c1 else c0)).
    + rewrite dft_pair by lia. ring.
    + intros j _. rewrite (dft_ext _ _ (fun l => if (l =? 0)%nat then (if (j =? 0)%nat then copp c1 else if (j =? 1)%nat then c1 else c0) else c0)).
      * rewrite dft_single by lia. reflexivity.
      * intros l _. unfold padR, inside, dfilt, dfilt_shape, upd. simpl. destruct j as [|[|j]], l as [|l]; simpl; try reflexivity; unfold ofR, copp, c1, re, im; simpl; f_equal; ring.
  - rewrite (dft_ext _ _ (fun j => if (j =? 0)%nat then cadd (copp c1) (cmul c1 (ru (s 1%nat) (- Z.of_nat (idx 1%nat)))) else c0)).
    + rewrite dft_single by lia. ring.
    + intros j _. destruct j as [|j].
      * rewrite <- dft_pair by lia. apply dft_ext. intros l _. unfold padR, inside, dfilt, dfilt_shape, upd. simpl. destruct l as [|[|l]]; simpl; try reflexivity; unfold ofR, copp, c1, re, im; simpl; f_equal; ring.
      * rewrite (dft_ext _ _ (fun _ => c0)); [apply dft_zero|]. intros l _. unfold padR, inside, dfilt, dfilt_shape, upd. simpl. destruct j; reflexivity.
Qed.
Lemma Gf_abs ax idx : (ax < 2)%nat -> ofR (cabs2 (Gf s ax idx)) = csub (csub (ofR 2) (ru (s ax) (Z.of_nat (idx ax)))) (ru (s ax) (- Z.of_nat (idx ax))).
Proof.
  intros H. rewrite <- mul_conj, (Gf_val ax idx H), conj_add. rewrite ru_conj, Z.opp_involutive.
  replace (conj (copp c1)) with (copp c1) by (unfold conj, copp, c1, re, im; simpl; f_equal; ring).
  pose proof (ru_inv (s ax) (Z.of_nat (idx ax))) as E. replace (ofR 2) with (cadd c1 c1) by (unfold ofR, cadd, c1, re, im; simpl; f_equal; ring).
  transitivity (csub (csub (cadd c1 (cmul (ru (s ax) (Z.of_nat (idx ax))) (ru (s ax) (- Z.of_nat (idx ax))))) (ru (s ax) (Z.of_nat (idx ax)))) (ru (s ax) (- Z.of_nat (idx ax)))); [ring|rewrite E; reflexivity].
Qed.

(** The operator of the normal equations. *)
Definition Tr (lmbda : R) (x : index -> R) : index -> R := fun i => x i + lmbda * ((2 * x i - x (at_nxt 0 i) - x (at_prv 0 i)) + (2 * x i - x (at_nxt 1 i) - x (at_prv 1 i))).
Definition Tc (lmbda : R) (x : index -> C) : index -> C := fun i => (Tr lmbda (fun j => re (x j)) i, Tr lmbda (fun j => im (x j)) i).
Lemma Tc_def lmbda x i : Tc lmbda x i = cadd (x i) (cmul (ofR lmbda) (cadd (csub (csub (cmul (ofR 2) (x i)) (x (at_nxt 0 i))) (x (at_prv 0 i))) (csub (csub (cmul (ofR 2) (x i)) (x (at_nxt 1 i))) (x (at_prv 1 i))))).
Proof. unfold Tc, Tr. apply c_eq; unfold cadd, csub, copp, cmul, ofR, re, im; simpl; ring. Qed.
Lemma F_T lmbda x idx : F (Tc lmbda x) idx = cmul (ofR (Aden s lmbda idx)) (F x idx).
Proof.
  replace (Tc lmbda x) with (fun i => cadd (x i) (cmul (ofR lmbda) (cadd (cadd (cadd (cmul (ofR 2) (x i)) (cmul (copp c1) (x (at_nxt 0 i)))) (cmul (copp c1) (x (at_prv 0 i)))) (cadd (cadd (cmul (ofR 2) (x i)) (cmul (copp c1) (x (at_nxt 1 i)))) (cmul (copp c1) (x (at_prv 1 i))))))).
  2: { extensionality i. rewrite Tc_def. ring. }
  rewrite F_add, F_scal, !F_add, !F_scal. rewrite !(F_nxt _ x), !(F_prv _ x) by lia.
  unfold Aden. replace (ofR (1 + lmbda * (cabs2 (Gf s 0 idx) + cabs2 (Gf s 1 idx)))) with (cadd c1 (cmul (ofR lmbda) (cadd (ofR (cabs2 (Gf s 0 idx))) (ofR (cabs2 (Gf s 1 idx)))))).
  - rewrite !Gf_abs by lia. ring.
  - unfold cadd, cmul, ofR, c1, re, im. simpl. f_equal; ring.
Qed.
Lemma Aden_pos lmbda idx : 0 <= lmbda -> 0 < Aden s lmbda idx.
Proof. intros H. unfold Aden. pose proof (cabs2_nonneg (Gf s 0 idx)). pose proof (cabs2_nonneg (Gf s 1 idx)). nra. Qed.
Lemma inv_scal r z : r <> 0 -> cmul (ofR r) (cscal (/ r) z) = z.
Proof. intros H. apply c_eq; unfold cmul, ofR, cscal, re, im; simpl; field; exact H. Qed.
Lemma scal_inv r z : r <> 0 -> cscal (/ r) (cmul (ofR r) z) = z.
Proof. intros H. apply c_eq; unfold cmul, ofR, cscal, re, im; simpl; field; exact H. Qed.
Lemma tik_cplx_normal lmbda sp idx : 0 <= lmbda -> rng idx -> Tc lmbda (tik_cplx s lmbda sp) idx = sp idx.
Proof.
  intros H R. apply F_inj_at; [|exact R]. intros i Ri _. rewrite F_T. unfold tik_cplx. rewrite F_IF by exact Ri. apply inv_scal. pose proof (Aden_pos lmbda i H). lra.
Qed.
Lemma re_Tc lmbda x i : re (Tc lmbda x i) = Tr lmbda (fun j => re (x j)) i. Proof. reflexivity. Qed.
Lemma Tc_ofR lmbda x i : Tc lmbda (fun j => ofR (x j)) i = ofR (Tr lmbda x i).
Proof. unfold Tc, ofR, re, im. simpl. f_equal. unfold Tr. ring. Qed.
Lemma irfftn_rfftn x idx : rng idx -> irfftn s [0; 1]%nat (rfftn s [0; 1]%nat x) idx = x idx.
Proof.
  intros [R0 R1]. unfold irfftn, rfftn. cbn [last removelast]. change (fftn s [0%nat] ?y) with (dft_ax s 0 y). change (ifftn s [0%nat] ?y) with (idft_ax s 0 y).
  rewrite (irfft_ext _ _ (dft (s 1%nat) (fun j => ofR (x (upd idx 1 j))))); [rewrite irfft_dft by exact R1; rewrite upd_self; reflexivity|lia|].
  intros k _. unfold idft_ax. replace (upd idx 1 k 0%nat) with (idx 0%nat) by reflexivity.
  rewrite (idft_ext _ _ (dft (s 0%nat) (fun j => dft (s 1%nat) (fun l => ofR (x (upd (upd idx 0 j) 1 l))) k))).
  - rewrite idft_dft by exact R0. apply dft_ext. intros l _. f_equal. f_equal. extensionality b. unfold upd. destruct b as [|[|b]]; reflexivity.
  - intros m _. unfold dft_ax. apply dft_ext. intros j _. unfold upd at 3 4. simpl Nat.eqb. cbv iota. apply dft_ext. intros l _. f_equal. f_equal. extensionality b. unfold upd. destruct b as [|[|b]]; reflexivity.
Qed.
Lemma tik_real_normal lmbda sp idx : 0 <= lmbda -> rng idx -> Tr lmbda (tik_real s lmbda sp) idx = sp idx.
Proof.
  intros H R. set (x := fun i => re (tik_cplx s lmbda (fun j => ofR (sp j)) i)).
  assert (N : forall i, rng i -> Tr lmbda x i = sp i) by (intros i Ri; unfold x; rewrite <- re_Tc, tik_cplx_normal by assumption; reflexivity).
  assert (E : forall i, rng i -> tik_real s lmbda sp i = x i).
  { intros i Ri. rewrite <- (irfftn_rfftn x i Ri). unfold tik_real. f_equal. extensionality k.
    change (rfftn s [0; 1]%nat sp) with (F (fun j => ofR (sp j))). change (rfftn s [0; 1]%nat x) with (F (fun j => ofR (x j))).
    rewrite (F_ext _ (Tc lmbda (fun j => ofR (x j)))) by (intros j Rj _; rewrite Tc_ofR, N by exact Rj; reflexivity).
    rewrite F_T. apply scal_inv. pose proof (Aden_pos lmbda k H). lra. }
  rewrite <- (N idx R). unfold Tr. rewrite !E; [reflexivity|..]; destruct R as [R0 R1]; split; unfold at_nxt, at_prv, upd; simpl; try assumption; try (apply nxt_lt; lia); apply prv_lt; lia.
Qed.

(** ** Quadratic optimality over arrays with d axes *)
Variable d : nat.
Hypothesis Hd : (2 <= d)%nat.
Notation SUM f := (rsum s (seq 0 d) f idx0).
Lemma rsum_nxt ax L f : In ax L -> NoDup L -> forall idx, rsum s L (fun i => f (at_nxt ax i)) idx = rsum s L f idx.
Proof.
  intros Hin ND idx. rewrite !(rsum_pull s ax L _ Hin ND). apply rsum_ext. intros i. rewrite <- (sumn_nxt (s ax) (fun j => f (upd i ax j))). apply sumn_ext. intros j _. unfold at_nxt. rewrite upd_same, upd_upd. reflexivity.
Qed.
Lemma rsum_prv ax L f : In ax L -> NoDup L -> forall idx, rsum s L (fun i => f (at_prv ax i)) idx = rsum s L f idx.
Proof.
  intros Hin ND idx. rewrite !(rsum_pull s ax L _ Hin ND). apply rsum_ext. intros i. rewrite <- (sumn_prv (s ax) (fun j => f (upd i ax j))). apply sumn_ext. intros j _. unfold at_prv. rewrite upd_same, upd_upd. reflexivity.
Qed.
Lemma np i ax : (i ax < s ax)%nat -> at_nxt ax (at_prv ax i) = i.
Proof. intros H. unfold at_nxt, at_prv. rewrite upd_same, upd_upd, nxt_prv by exact H. apply upd_self. Qed.
(** Summation by parts. *)
Lemma by_parts ax x w : (ax < 2)%nat -> SUM (fun i => (x (at_prv ax i) - x i) * (w (at_prv ax i) - w i)) = SUM (fun i => w i * (2 * x i - x (at_nxt ax i) - x (at_prv ax i))).
Proof.
  intros H. assert (Hin : In ax (seq 0 d)) by (apply in_seq; lia). pose proof (seq_NoDup d 0) as ND.
  transitivity (SUM (fun i => (x (at_prv ax i) - x i) * w (at_prv ax i)) + SUM (fun i => - ((x (at_prv ax i) - x i) * w i))).
  { rewrite <- rsum_plus. apply rsum_ext. intros. ring. }
  assert (E : SUM (fun i => (x (at_prv ax i) - x i) * w (at_prv ax i)) = SUM (fun i => (x i - x (at_nxt ax i)) * w i)).
  { rewrite <- (rsum_prv ax _ (fun i => (x i - x (at_nxt ax i)) * w i) Hin ND). apply rsum_ext_in. intros i Hi _. rewrite np by (apply Hi, Hin). reflexivity. }
  rewrite E, <- rsum_plus. apply rsum_ext. intros. ring.
Qed.
Definition obj (lmbda : R) (sp z : index -> R) : R :=
  / 2 * SUM (fun i => (z i - sp i) ^ 2) + lmbda / 2 * (SUM (fun i => (z (at_prv 0 i) - z i) ^ 2) + SUM (fun i => (z (at_prv 1 i) - z i) ^ 2)).
Lemma rsum_nonneg L f : (forall i, 0 <= f i) -> forall idx, 0 <= rsum s L f idx.
Proof. intros H. induction L as [|a L IH]; intros idx; simpl; [apply H|]. apply sumn_nonneg. intros. apply IH. Qed.
Lemma obj_gap lmbda sp x z : (forall i, rng i -> Tr lmbda x i = sp i) ->
  obj lmbda sp z - obj lmbda sp x = / 2 * SUM (fun i => (z i - x i) ^ 2) + lmbda / 2 * (SUM (fun i => ((z (at_prv 0 i) - x (at_prv 0 i)) - (z i - x i)) ^ 2) + SUM (fun i => ((z (at_prv 1 i) - x (at_prv 1 i)) - (z i - x i)) ^ 2)).
Proof.
  intros N. set (w := fun i => z i - x i).
  assert (Q : forall g h : index -> R, SUM (fun i => (g i + h i) ^ 2) = SUM (fun i => g i ^ 2) + 2 * SUM (fun i => h i * g i) + SUM (fun i => h i ^ 2)).
  { intros g h. rewrite <- rsum_scal, <- !rsum_plus. apply rsum_ext. intros. ring. }
  assert (Q1 : SUM (fun i => (z i - sp i) ^ 2) = SUM (fun i => (x i - sp i) ^ 2) + 2 * SUM (fun i => w i * (x i - sp i)) + SUM (fun i => w i ^ 2)).
  { rewrite <- (Q (fun i => x i - sp i) w). apply rsum_ext. intros i. unfold w. f_equal. ring. }
  assert (Q2 : forall ax, (ax < 2)%nat -> SUM (fun i => (z (at_prv ax i) - z i) ^ 2) = SUM (fun i => (x (at_prv ax i) - x i) ^ 2) + 2 * SUM (fun i => w i * (2 * x i - x (at_nxt ax i) - x (at_prv ax i))) + SUM (fun i => (w (at_prv ax i) - w i) ^ 2)).
  { intros ax Hax. rewrite <- (by_parts ax x w Hax).
    rewrite (rsum_ext s (seq 0 d) (fun i => (x (at_prv ax i) - x i) * (w (at_prv ax i) - w i)) (fun i => (w (at_prv ax i) - w i) * (x (at_prv ax i) - x i))) by (intros; ring).
    rewrite <- (Q (fun i => x (at_prv ax i) - x i) (fun i => w (at_prv ax i) - w i)). apply rsum_ext. intros i. unfold w. f_equal. ring. }
  unfold obj. rewrite Q1, !Q2 by lia. fold (w idx0).
  assert (Z : SUM (fun i => w i * (x i - sp i)) + lmbda * (SUM (fun i => w i * (2 * x i - x (at_nxt 0 i) - x (at_prv 0 i))) + SUM (fun i => w i * (2 * x i - x (at_nxt 1 i) - x (at_prv 1 i)))) = 0).
  { rewrite <- rsum_plus, <- rsum_scal, <- rsum_plus. rewrite (rsum_ext_in s (seq 0 d) _ (fun _ => 0 * 0)).
    - rewrite (rsum_scal s (seq 0 d) 0 (fun _ => 0)). ring.
    - intros i Hi _. rewrite <- (N i) by (split; apply Hi, in_seq; lia). unfold Tr. ring. }
  change (fun i => (z (at_prv 0 i) - x (at_prv 0 i) - (z i - x i)) ^ 2) with (fun i => (w (at_prv 0 i) - w i) ^ 2).
  change (fun i => (z (at_prv 1 i) - x (at_prv 1 i) - (z i - x i)) ^ 2) with (fun i => (w (at_prv 1 i) - w i) ^ 2).
  change (fun i => (z i - x i) ^ 2) with (fun i => w i ^ 2). lra.
Qed.
End two.
