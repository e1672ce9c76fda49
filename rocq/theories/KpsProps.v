(** C92: nearest Kronecker products, the Kronecker product SVD, principal components and block circulant matrices. *)
Require Import List Reals Lra Lia Arith ZArith Bool.
Require Import Verif.RVec Verif.NdIndex Verif.ArrayModel Verif.NucModel Verif.NucSpec Verif.NucProofs Verif.KpsModel Verif.KpsSpec Verif.KpsProofs.
Require Verif.AdmmProps.
Import ListNotations.
Local Open Scope R_scope.

(** ** Consequences of a decomposition *)
Section Svd.
Variables (M N : nat) (X U V : nat -> nat -> R) (s : nat -> R).
Let K := Nat.min M N.
Hypothesis H : is_sorted_svd M N X (U, s, V).
Let HU := proj1 (proj1 H).
Let HV := proj1 (proj2 (proj1 H)).
Let Hs := proj1 (proj2 (proj2 (proj1 H))).
Let HX := proj2 (proj2 (proj2 (proj1 H))).
Let Hd : forall k, (S k < K)%nat -> s (S k) <= s k := proj2 H.

Lemma mdist2_f Y : mdist2 M N X Y = fnrm2 M N (fun i j => comp M N U V s i j - Y i j).
Proof.
  unfold mdist2, fnrm2, fdot. apply sumn_ext. intros i Hi. apply sumn_ext. intros j Hj. rewrite (HX i j Hi Hj). unfold comp. ring.
Qed.
Lemma best_rank n x y :
  mdist2 M N X (fun i j => sumn (Nat.min n K) (fun k => U i k * (s k * V k j))) <= mdist2 M N X (fun i j => sumn n (fun k => x k i * y k j)).
Proof.
  rewrite !mdist2_f. unfold K. rewrite (ey_value M N U V s HU HV n). apply (ey_lower M N U V s HU HV Hs Hd).
Qed.
Lemma svd_coefs k j : (k < K)%nat -> (j < N)%nat -> sumn M (fun i => U i k * X i j) = s k * V k j.
Proof.
  intros Hk Hj. rewrite (sumn_ext M _ (fun i => sumn K (fun a => (s a * V a j) * (U i k * U i a)))).
  2:{ intros i Hi. rewrite (HX i j Hi Hj), <- sumn_scal. apply sumn_ext. intros. ring. }
  rewrite sumn_swap. rewrite (sumn_ext K _ (fun a => delta k a * (s a * V a j))).
  - apply sumn_delta_l. exact Hk.
  - intros a Ha. rewrite sumn_scal, (HU k a Hk Ha). ring.
Qed.
Lemma svd_rows k i : (k < K)%nat -> (i < M)%nat -> sumn N (fun j => X i j * V k j) = s k * U i k.
Proof.
  intros Hk Hi. rewrite (sumn_ext N _ (fun j => sumn K (fun a => (U i a * s a) * (V k j * V a j)))).
  2:{ intros j Hj. rewrite (HX i j Hi Hj), <- sumn_scal_r. apply sumn_ext. intros. ring. }
  rewrite sumn_swap. rewrite (sumn_ext K _ (fun a => delta k a * (s a * U i a))).
  - apply sumn_delta_l. exact Hk.
  - intros a Ha. rewrite sumn_scal, (HV k a Hk Ha). ring.
Qed.
Lemma svd_eigen k i : (k < K)%nat -> (i < M)%nat ->
  sumn M (fun i' => sumn N (fun j => X i j * X i' j) * U i' k) = s k ^ 2 * U i k.
Proof.
  intros Hk Hi. rewrite (sumn_ext M _ (fun i' => sumn N (fun j => X i j * (U i' k * X i' j)))).
  2:{ intros i' _. rewrite <- sumn_scal_r. apply sumn_ext. intros. ring. }
  rewrite sumn_swap. rewrite (sumn_ext N _ (fun j => s k * (X i j * V k j))).
  2:{ intros j Hj. rewrite sumn_scal, (svd_coefs k j Hk Hj). ring. }
  rewrite sumn_scal, (svd_rows k i Hk Hi). ring.
Qed.
Lemma svd_energy : sumn M (fun i => sumn N (fun j => X i j ^ 2)) = sumn K (fun k => s k ^ 2).
Proof.
  unfold K. rewrite <- (fnrm2_comp M N U V HU HV s). unfold fnrm2, fdot. apply sumn_ext. intros i Hi. apply sumn_ext. intros j Hj. rewrite (HX i j Hi Hj). unfold comp. ring.
Qed.
End Svd.

Lemma mdist2_ext M N X X' Y Y' : (forall i j, (i < M)%nat -> (j < N)%nat -> X i j = X' i j) -> (forall i j, (i < M)%nat -> (j < N)%nat -> Y i j = Y' i j) ->
  mdist2 M N X Y = mdist2 M N X' Y'.
Proof. intros H1 H2. unfold mdist2. apply sumn_ext. intros i Hi. apply sumn_ext. intros j Hj. rewrite H1, H2 by assumption. reflexivity. Qed.

(** ** Nearest Kronecker product *)
(** nkp and kpsvd raise exactly when the shapes do not multiply to the shape of A, or B has a single row or column, or C is empty. *)
Theorem C92_raises : forall svd pad A b0 b1 c0 c1 a0 a1, sshape A = [a0; a1] ->
  let bad := ~ (a0 = b0 * c0 /\ a1 = b1 * c1)%nat \/ (b0 <= 1 \/ b1 <= 1 \/ c0 = 0 \/ c1 = 0)%nat in
  (nkp svd pad A (b0, b1) (c0, c1) = None <-> bad) /\ (kpsvd svd pad A (b0, b1) (c0, c1) = None <-> bad).
Proof.
  intros svd pad A b0 b1 c0 c1 a0 a1 Hs bad. unfold bad. rewrite <- (atilde_none pad A b0 b1 c0 c1 a0 a1 Hs). unfold nkp, kpsvd.
  destruct (atilde pad A (b0, b1) (c0, c1)) as [At|]; [|tauto].
  destruct (svd (fst (b0, b1) * snd (b0, b1))%nat (fst (c0, c1) * snd (c0, c1))%nat At) as [[U Sv] Vt]. split; split; discriminate.
Qed.
Print Assumptions C92_raises.

(** A Kronecker product with a one by one (or single row, or single column) first factor is a valid request that raises. *)
Theorem C92_single_refuted : forall svd pad A c0 c1, (0 < c0)%nat -> (0 < c1)%nat -> sshape A = [c0; c1] ->
  nkp svd pad A (1, 1)%nat (c0, c1) = None /\ kpsvd svd pad A (1, 1)%nat (c0, c1) = None /\
  exists B' C', mdist2 c0 c1 (fun p q => sget A [p; q]) (kron c0 c1 B' C') = 0.
Proof.
  intros svd pad A c0 c1 H0 H1 Hs. destruct (C92_raises svd pad A 1 1 c0 c1 c0 c1 Hs) as [E1 E2].
  split; [apply E1; right; left; lia|]. split; [apply E2; right; left; lia|].
  exists (fun _ _ => 1), (fun i j => sget A [i; j]). unfold mdist2. apply sumn_0. intros i Hi. apply sumn_0. intros j Hj. unfold kron.
  rewrite !Nat.mod_small by assumption. ring.
Qed.
Print Assumptions C92_single_refuted.

Section Kron.
Variable svd : nat -> nat -> NucModel.mat -> NucModel.mat * (nat -> R) * NucModel.mat.
Variables (pad : sarr R -> list nat -> sarr R) (A : sarr R) (b0 b1 c0 c1 a0 a1 : nat) (st0 st1 : Z).
Hypotheses (Hs : sshape A = [a0; a1]) (Ht : strides A = [st0; st1]).
Hypothesis Hsvd : forall X, holds_blocks b0 b1 c0 c1 (fun p q => sget A [p; q]) X ->
  is_sorted_svd (b0 * b1) (c0 * c1) X (svd (b0 * b1)%nat (c0 * c1)%nat X).
Let K := Nat.min (b0 * b1) (c0 * c1).
Let Am : NucModel.mat := fun p q => sget A [p; q].

Lemma colmajor_eq n0 (a b : nat) : (a + b * n0 = b * n0 + a)%nat. Proof. lia. Qed.
Lemma sum_F n0 n1 (f : nat -> R) : (0 < n0)%nat -> sumn n0 (fun k => sumn n1 (fun l => f (k + l * n0)%nat)) = sumn (n0 * n1) f.
Proof.
  intros H. rewrite (Nat.mul_comm n0 n1), (AdmmProps.sumn_flat n0 n1) by exact H. rewrite sumn_swap. apply sumn_ext. intros l _. apply sumn_ext. intros k _. f_equal. lia.
Qed.

Lemma kpsvd_correct Sv B C : kpsvd svd pad A (b0, b1) (c0, c1) = Some (Sv, B, C) ->
  (forall p q, (p < a0)%nat -> (q < a1)%nat -> Am p q = sumn K (fun t => Sv t * kron c0 c1 (fun k l => B k l t) (fun i j => C i j t) p q)) /\
  (forall t u, (t < K)%nat -> (u < K)%nat -> sumn b0 (fun k => sumn b1 (fun l => B k l t * B k l u)) = delta t u) /\
  (forall t u, (t < K)%nat -> (u < K)%nat -> sumn c0 (fun i => sumn c1 (fun j => C i j t * C i j u)) = delta t u) /\
  (forall t, (t < K)%nat -> 0 <= Sv t) /\ (forall t, (S t < K)%nat -> Sv (S t) <= Sv t) /\
  (forall n B' C', mdist2 a0 a1 Am (fun p q => sumn (Nat.min n K) (fun t => Sv t * kron c0 c1 (fun k l => B k l t) (fun i j => C i j t) p q)) <=
                   mdist2 a0 a1 Am (fun p q => sumn n (fun t => kron c0 c1 (B' t) (C' t) p q))).
Proof.
  intros E. unfold kpsvd in E. destruct (atilde pad A (b0, b1) (c0, c1)) as [At|] eqn:EA; [|discriminate].
  destruct (atilde_some pad A b0 b1 c0 c1 a0 a1 st0 st1 At Hs Ht EA) as ((P1 & P2 & P3 & P4 & E0 & E1) & HAt).
  assert (Q : is_sorted_svd (b0 * b1) (c0 * c1) At (svd (b0 * b1)%nat (c0 * c1)%nat At)) by (apply Hsvd; exact HAt).
  cbn [fst snd] in E. destruct (svd (b0 * b1)%nat (c0 * c1)%nat At) as [[U s] V] eqn:ES. injection E as <- <- <-.
  assert (HU := proj1 (proj1 Q)). assert (HV := proj1 (proj2 (proj1 Q))). assert (HX := proj2 (proj2 (proj2 (proj1 Q)))). cbn beta iota zeta in HU, HV, HX.
  split; [|split; [|split; [|split; [exact (proj1 (proj2 (proj2 (proj1 Q))))|split; [exact (proj2 Q)|]]]]].
  - intros p q Hp Hq. unfold Am.
    assert (Hk : (p / c0 < b0)%nat) by (apply Nat.div_lt_upper_bound; lia). assert (Hl : (q / c1 < b1)%nat) by (apply Nat.div_lt_upper_bound; lia).
    assert (Hi : (p mod c0 < c0)%nat) by (apply Nat.mod_upper_bound; lia). assert (Hj : (q mod c1 < c1)%nat) by (apply Nat.mod_upper_bound; lia).
    pose proof (HAt _ _ _ _ Hk Hl Hi Hj) as G. rewrite (Nat.mul_comm (p / c0) c0), (Nat.mul_comm (q / c1) c1) in G. rewrite <- !Nat.div_mod in G by lia. rewrite <- G.
    rewrite HX by nia. apply sumn_ext. intros t _. unfold kron, reshape_F. rewrite !(colmajor_eq _ _ (_ / _)), (colmajor_eq _ _ (q mod c1)). ring.
  - intros t u Htk Huk. unfold reshape_F. rewrite (sum_F b0 b1 (fun r => U r t * U r u)) by exact P1. apply HU; assumption.
  - intros t u Htk Huk. unfold reshape_F. rewrite (sum_F c0 c1 (fun r => V t r * V u r)) by exact P3. apply HV; assumption.
  - intros n B' C'. rewrite E0, E1.
    rewrite (mdist2_ext (b0 * c0) (b1 * c1) Am Am (fun p q => sumn (Nat.min n K) (fun t => s t * kron c0 c1 (fun k l => reshape_F b0 (fun r => U r t) k l) (fun i j => reshape_F c0 (fun r => V t r) i j) p q))
      (fun p q => sumn (Nat.min n K) (fun t => kron c0 c1 (fun k l => U (l * b0 + k)%nat t) (fun i j => s t * V t (j * c0 + i)%nat) p q))).
    2:{ intros; reflexivity. } 2:{ intros p q _ _. apply sumn_ext. intros t _. unfold kron, reshape_F. rewrite !(colmajor_eq _ _ (_ / _)), (colmajor_eq _ _ (q mod c1)). ring. }
    rewrite (dist_tilde b0 b1 c0 c1 P1 P3 P4 (Nat.min n K) Am At (fun t k l => U (l * b0 + k)%nat t) (fun t i j => s t * V t (j * c0 + i)%nat) HAt).
    rewrite (dist_tilde b0 b1 c0 c1 P1 P3 P4 n Am At B' C' HAt).
    pose proof (best_rank (b0 * b1) (c0 * c1) At U V s Q n (fun t r => B' t (r mod b0) (r / b0)%nat) (fun t r => C' t (r mod c0) (r / c0)%nat)) as BR.
    unfold mdist2 in BR. unfold fnrm2, fdot.
    eapply Rle_trans; [|eapply Rle_trans; [exact BR|]]; right; apply sumn_ext; intros r Hr; apply sumn_ext; intros q Hq.
    + fold K. rewrite (sumn_ext (Nat.min n K) (fun t => U (r / b0 * b0 + r mod b0)%nat t * (s t * V t (q / c0 * c0 + q mod c0)%nat)) (fun k => U r k * (s k * V k q))); [ring|].
      intros t _. rewrite (Nat.mul_comm (r / b0)), (Nat.mul_comm (q / c0)). rewrite <- !Nat.div_mod by lia. reflexivity.
    + ring.
Qed.

Lemma nkp_kpsvd B C : nkp svd pad A (b0, b1) (c0, c1) = Some (B, C) ->
  exists Sv B3 C3, kpsvd svd pad A (b0, b1) (c0, c1) = Some (Sv, B3, C3) /\
    (forall k l, B k l = sqrt (Sv O) * B3 k l O) /\ (forall i j, C i j = sqrt (Sv O) * C3 i j O) /\ (0 < K)%nat.
Proof.
  unfold nkp, kpsvd. destruct (atilde pad A (b0, b1) (c0, c1)) as [At|] eqn:EA; [|discriminate].
  destruct (atilde_some pad A b0 b1 c0 c1 a0 a1 st0 st1 At Hs Ht EA) as ((P1 & P2 & P3 & P4 & E0 & E1) & _).
  destruct (svd (fst (b0, b1) * snd (b0, b1))%nat (fst (c0, c1) * snd (c0, c1))%nat At) as [[U Sv] Vt]. intros E. injection E as <- <-.
  eexists _, _, _. split; [reflexivity|]. split; [reflexivity|]. split; [reflexivity|]. unfold K. nia.
Qed.

Lemma nkp_correct B C : nkp svd pad A (b0, b1) (c0, c1) = Some (B, C) ->
  (forall B' C', mdist2 a0 a1 Am (kron c0 c1 B C) <= mdist2 a0 a1 Am (kron c0 c1 B' C')) /\
  sumn b0 (fun k => sumn b1 (fun l => B k l ^ 2)) = sumn c0 (fun i => sumn c1 (fun j => C i j ^ 2)).
Proof.
  intros E. destruct (nkp_kpsvd B C E) as (Sv & B3 & C3 & E3 & HB & HC & HK).
  destruct (kpsvd_correct Sv B3 C3 E3) as (_ & OB & OC & Pos & _ & Best). assert (S0 := Pos O HK).
  split.
  - intros B' C'. specialize (Best 1%nat (fun _ => B') (fun _ => C')). rewrite Nat.min_l in Best by lia. cbn [sumn] in Best.
    eapply Rle_trans; [|eapply Rle_trans; [exact Best|]]; right; apply mdist2_ext; intros; try reflexivity; try lra.
    unfold kron. rewrite HB, HC. rewrite Rplus_0_l. rewrite <- (sqrt_sqrt (Sv O) S0) at 3. ring.
  - transitivity (Sv O * delta 0 0).
    + rewrite <- (OB O O HK HK), <- sumn_scal. apply sumn_ext. intros k _. rewrite <- sumn_scal. apply sumn_ext. intros l _. rewrite HB. rewrite <- (sqrt_sqrt (Sv O) S0) at 2. ring.
    + rewrite <- (OC O O HK HK), <- sumn_scal. apply sumn_ext. intros k _. rewrite <- sumn_scal. apply sumn_ext. intros l _. rewrite HC. rewrite <- (sqrt_sqrt (Sv O) S0) at 1. ring.
Qed.
End Kron.

(** The pair returned by nkp is a solution of the nearest Kronecker product problem, with factors of equal norm. *)
Theorem C92_nkp : forall svd pad A b0 b1 c0 c1 a0 a1 st0 st1, sshape A = [a0; a1] -> strides A = [st0; st1] ->
  (forall X, holds_blocks b0 b1 c0 c1 (fun p q => sget A [p; q]) X -> is_sorted_svd (b0 * b1) (c0 * c1) X (svd (b0 * b1)%nat (c0 * c1)%nat X)) ->
  forall B C, nkp svd pad A (b0, b1) (c0, c1) = Some (B, C) ->
  (forall B' C', mdist2 a0 a1 (fun p q => sget A [p; q]) (kron c0 c1 B C) <= mdist2 a0 a1 (fun p q => sget A [p; q]) (kron c0 c1 B' C')) /\
  sumn b0 (fun k => sumn b1 (fun l => B k l ^ 2)) = sumn c0 (fun i => sumn c1 (fun j => C i j ^ 2)).
Proof. intros. eapply nkp_correct; eassumption. Qed.
Print Assumptions C92_nkp.

(** kpsvd decomposes A exactly into orthonormal terms with descending weights, and every truncation is a best approximation
    with that number of terms. *)
Theorem C92_kpsvd : forall svd pad A b0 b1 c0 c1 a0 a1 st0 st1, sshape A = [a0; a1] -> strides A = [st0; st1] ->
  (forall X, holds_blocks b0 b1 c0 c1 (fun p q => sget A [p; q]) X -> is_sorted_svd (b0 * b1) (c0 * c1) X (svd (b0 * b1)%nat (c0 * c1)%nat X)) ->
  forall Sv B C, kpsvd svd pad A (b0, b1) (c0, c1) = Some (Sv, B, C) ->
  let K := Nat.min (b0 * b1) (c0 * c1) in
  let term t := fun p q => Sv t * kron c0 c1 (fun k l => B k l t) (fun i j => C i j t) p q in
  (forall p q, (p < a0)%nat -> (q < a1)%nat -> sget A [p; q] = sumn K (fun t => term t p q)) /\
  (forall t u, (t < K)%nat -> (u < K)%nat -> sumn b0 (fun k => sumn b1 (fun l => B k l t * B k l u)) = delta t u) /\
  (forall t u, (t < K)%nat -> (u < K)%nat -> sumn c0 (fun i => sumn c1 (fun j => C i j t * C i j u)) = delta t u) /\
  (forall t, (t < K)%nat -> 0 <= Sv t) /\ (forall t, (S t < K)%nat -> Sv (S t) <= Sv t) /\
  (forall n B' C', mdist2 a0 a1 (fun p q => sget A [p; q]) (fun p q => sumn (Nat.min n K) (fun t => term t p q)) <=
                   mdist2 a0 a1 (fun p q => sget A [p; q]) (fun p q => sumn n (fun t => kron c0 c1 (B' t) (C' t) p q))).
Proof. intros. eapply kpsvd_correct; eassumption. Qed.
Print Assumptions C92_kpsvd.

(** ** Principal components *)
(** The data whose decomposition is taken: the observations, minus their mean if there is one. *)
Definition data (U : nat -> nat -> R) (C : option (nat -> R)) : nat -> nat -> R :=
  fun i j => U i j - match C with Some c => c i | None => 0 end.

(** The columns of B are orthonormal eigenvectors of the scatter matrix of the data with the returned eigenvalues, which descend
    and sum to the energy of the data; analysis by B.T followed by synthesis by B reproduces the data; the mean is what makes
    the data sum to zero. *)
Theorem C92_pca : forall svd M N U centre, (centre = true -> (0 < N)%nat) ->
  let '(B, L, C) := pca svd M N U centre in let X := data U C in let K := Nat.min M N in
  (forall Z, (forall i j, (i < M)%nat -> (j < N)%nat -> Z i j = X i j) -> is_sorted_svd M N X (svd M N Z)) ->
  (C = None <-> centre = false) /\ (centre = true -> forall i, sumn N (fun j => X i j) = 0) /\
  orthonormal M K B /\
  (forall k i, (k < K)%nat -> (i < M)%nat -> sumn M (fun i' => sumn N (fun j => X i j * X i' j) * B i' k) = L k * B i k) /\
  (forall k, (k < K)%nat -> 0 <= L k) /\ (forall k, (S k < K)%nat -> L (S k) <= L k) /\
  sumn K L = sumn M (fun i => sumn N (fun j => X i j ^ 2)) /\
  (forall i j, (i < M)%nat -> (j < N)%nat -> mvec K B (coefs M B (fun i => X i j)) i = X i j).
Proof.
  intros svd M N U centre HN. unfold pca.
  set (p := if centre then _ else _). assert (Ep : p = if centre then ((fun i j => U i j - (fun i => sumn N (fun j => U i j) / INR N) i), Some (fun i => sumn N (fun j => U i j) / INR N)) else (U, None)) by reflexivity.
  destruct p as [U' C]. destruct (svd M N U') as [[B s] V] eqn:ES. intros H.
  assert (HC : (C = None <-> centre = false) /\ (centre = true -> forall i, sumn N (fun j => data U C i j) = 0) /\ forall i j, U' i j = data U C i j).
  { destruct centre; injection Ep as -> ->.
    - split; [split; discriminate|]. split; [|reflexivity]. intros _ i. unfold data. rewrite sumn_minus. cbv beta iota. rewrite sumn_const. change (sumn N (fun j => U i j)) with (sumn N (U i)). field. apply not_0_INR. specialize (HN eq_refl). lia.
    - split; [split; reflexivity|]. split; [discriminate|]. intros. unfold data. ring. }
  destruct HC as (H1 & H2 & H3). split; [exact H1|]. split; [exact H2|].
  assert (Q : is_sorted_svd M N (data U C) (B, s, V)) by (rewrite <- ES; apply H; intros; apply H3).
  assert (HU := proj1 (proj1 Q)). assert (HX := proj2 (proj2 (proj2 (proj1 Q)))). cbn beta iota zeta in HU, HX.
  assert (Pos := proj1 (proj2 (proj2 (proj1 Q)))). assert (Dec := proj2 Q). cbn beta iota zeta delta [fst snd] in Pos, Dec.
  split; [exact HU|]. split; [intros k i Hk Hi; apply (svd_eigen M N (data U C) B V s Q k i Hk Hi)|].
  split; [intros; apply pow2_ge_0|].
  split; [intros k Hk; pose proof (Dec k Hk); pose proof (Pos (S k) Hk); nra|].
  split; [symmetry; apply (svd_energy M N (data U C) B V s Q)|].
  intros i j Hi Hj. rewrite (HX i j Hi Hj). unfold mvec, coefs. apply sumn_ext. intros k Hk. f_equal. apply (svd_coefs M N (data U C) B V s Q k j Hk Hj).
Qed.
Print Assumptions C92_pca.

Lemma mean_split N (f g : nat -> R) : sumn N f = 0 -> (forall j, g j = g O) -> sumn N (fun j => f j ^ 2) <= sumn N (fun j => (f j - g j) ^ 2).
Proof.
  intros H G. rewrite (sumn_ext N (fun j => (f j - g j) ^ 2) (fun j => f j ^ 2 - (2 * g O) * f j + g O ^ 2)) by (intros j _; rewrite (G j); ring).
  rewrite sumn_plus, sumn_minus, sumn_scal, H, sumn_const. pose proof (pos_INR N). pose proof (pow2_ge_0 (g O)). nra.
Qed.

(** The first n components give the best approximation of the data by any n-dimensional subspace and, with centering, of the
    observations by any n-dimensional affine subspace. *)
Theorem C92_pca_best : forall svd M N U centre, (centre = true -> (0 < N)%nat) ->
  let '(B, L, C) := pca svd M N U centre in let X := data U C in
  (forall Z, (forall i j, (i < M)%nat -> (j < N)%nat -> Z i j = X i j) -> is_sorted_svd M N X (svd M N Z)) ->
  forall n, (n <= Nat.min M N)%nat -> forall Q W o, (centre = false -> forall i, o i = 0) ->
  mdist2 M N X (fun i j => mvec n B (coefs M B (fun i => X i j)) i) <= mdist2 M N U (fun i j => o i + mvec n Q (fun k => W k j) i).
Proof.
  intros svd M N U centre HN. unfold pca.
  set (p := if centre then _ else _). assert (Ep : p = if centre then ((fun i j => U i j - (fun i => sumn N (fun j => U i j) / INR N) i), Some (fun i => sumn N (fun j => U i j) / INR N)) else (U, None)) by reflexivity.
  destruct p as [U' C]. destruct (svd M N U') as [[B s] V] eqn:ES. intros H n Hn Q W o Ho.
  assert (H3 : forall i j, U' i j = data U C i j).
  { destruct centre; injection Ep as -> ->; [reflexivity|]. intros. unfold data. ring. }
  assert (S : is_sorted_svd M N (data U C) (B, s, V)) by (rewrite <- ES; apply H; intros; apply H3).
  rewrite (mdist2_ext M N (data U C) (data U C) _ (fun i j => sumn (Nat.min n (Nat.min M N)) (fun k => B i k * (s k * V k j)))).
  2:{ reflexivity. }
  2:{ intros i j Hi Hj. rewrite (Nat.min_l n) by exact Hn. unfold mvec, coefs. apply sumn_ext. intros k Hk. f_equal. apply (svd_coefs M N (data U C) B V s S); lia. }
  destruct centre; injection Ep as -> EC; subst C.
  - (* the mean of the coefficients goes into the offset *)
    set (wm := fun k => sumn N (fun j => W k j) / INR N). set (c := fun i => sumn N (fun j => U i j) / INR N) in *. assert (N0 : INR N <> 0) by (apply not_0_INR; specialize (HN eq_refl); lia).
    eapply Rle_trans; [apply (best_rank M N _ B V s S n (fun k i => Q i k) (fun k j => W k j - wm k))|].
    unfold mdist2. apply sumn_le. intros i _.
    set (f := fun j => data U (Some c) i j - sumn n (fun k => Q i k * (W k j - wm k))).
    set (g := fun _ : nat => (o i - c i) + sumn n (fun k => Q i k * wm k)).
    assert (F0 : sumn N f = 0).
    { unfold f. rewrite sumn_minus, sumn_swap. unfold data. rewrite sumn_minus, sumn_const.
      rewrite (sumn_ext n _ (fun _ => 0)); [rewrite sumn_const; unfold c; change (sumn N (fun j => U i j)) with (sumn N (U i)); field; exact N0|].
      intros k _. rewrite sumn_scal, sumn_minus, sumn_const. unfold wm. change (sumn N (fun j => W k j)) with (sumn N (W k)). field. exact N0. }
    eapply Rle_trans; [apply (mean_split N f g F0); reflexivity|]. right. apply sumn_ext. intros j _. unfold f, g, data, mvec.
    rewrite (sumn_ext n (fun k => Q i k * (W k j - wm k)) (fun k => Q i k * W k j - Q i k * wm k)) by (intros; ring). rewrite sumn_minus. ring.
  - eapply Rle_trans; [apply (best_rank M N _ B V s S n (fun k i => Q i k) W)|]. right. apply mdist2_ext; intros i j _ _; [unfold data; ring|].
    rewrite (Ho eq_refl i). unfold mvec. ring.
Qed.
Print Assumptions C92_pca_best.

(** Synthesis after analysis is the identity on all vectors when there are at least as many observations as variables. *)
Theorem C92_pca_synthesis : forall svd M N U centre, (M <= N)%nat ->
  let '(B, L, C) := pca svd M N U centre in let X := data U C in
  (forall Z, (forall i j, (i < M)%nat -> (j < N)%nat -> Z i j = X i j) -> is_sorted_svd M N X (svd M N Z)) ->
  forall x i, (i < M)%nat -> mvec (Nat.min M N) B (coefs M B x) i = x i.
Proof.
  intros svd M N U centre HN. unfold pca.
  set (p := if centre then _ else _). assert (Ep : p = if centre then ((fun i j => U i j - (fun i => sumn N (fun j => U i j) / INR N) i), Some (fun i => sumn N (fun j => U i j) / INR N)) else (U, None)) by reflexivity.
  destruct p as [U' C]. destruct (svd M N U') as [[B s] V] eqn:ES. intros H.
  assert (H3 : forall i j, U' i j = data U C i j).
  { destruct centre; injection Ep as -> ->; [reflexivity|]. intros. unfold data. ring. }
  assert (Q : is_sorted_svd M N (data U C) (B, s, V)) by (rewrite <- ES; apply H; intros; apply H3).
  assert (HU := proj1 (proj1 Q)). cbn beta iota zeta in HU. rewrite (Nat.min_l M N HN) in *. clear -HU.
  assert (O : almost_on M M (fun k i => B i k)).
  { split; [intros a b Ha Hb Ne; unfold dot; rewrite HU by assumption; unfold delta; destruct (Nat.eqb_spec a b); [contradiction|reflexivity]|].
    intros a Ha. right. unfold nrm2, dot. rewrite HU by exact Ha. unfold delta. rewrite Nat.eqb_refl. reflexivity. }
  set (e := fun (i : nat) => delta i).
  set (res := fun i => nrm2 M (vsub (e i) (fun i' => sumn M (fun a => dot M (fun i0 => B i0 a) (e i) * B i' a)))).
  assert (De : forall i y, (i < M)%nat -> dot M y (e i) = y i). { intros i y Hi. rewrite dot_comm. unfold dot, e. apply sumn_delta_l. exact Hi. }
  assert (R0 : forall i, (i < M)%nat -> res i = 1 - sumn M (fun a => B i a ^ 2)).
  { intros i Hi. unfold res. rewrite (fam_expand M M (fun k i => B i k) _ (e i) O).
    assert (N1 : nrm2 M (e i) = 1) by (unfold nrm2; rewrite De by exact Hi; unfold e, delta; rewrite Nat.eqb_refl; reflexivity). rewrite N1.
    rewrite (sumn_ext M (fun a => dot M (fun i0 => B i0 a) (e i) * dot M (fun i0 => B i0 a) (e i)) (fun a => B i a ^ 2)) by (intros; rewrite De by exact Hi; ring).
    rewrite (sumn_ext M (fun a => dot M (fun i0 => B i0 a) (e i) ^ 2 * nrm2 M (fun i0 => B i0 a)) (fun a => B i a ^ 2)); [ring|].
    intros a Ha. rewrite De by exact Hi. unfold nrm2, dot. rewrite HU by exact Ha. unfold delta. rewrite Nat.eqb_refl. ring. }
  assert (T : sumn M res = 0).
  { rewrite (sumn_ext M res (fun i => 1 - sumn M (fun a => B i a ^ 2))) by (intros; apply R0; assumption). rewrite sumn_minus, sumn_const, sumn_swap.
    rewrite (sumn_ext M (fun a => sumn M (fun i => B i a ^ 2)) (fun _ => 1)); [rewrite sumn_const; ring|].
    intros a Ha. rewrite (sumn_ext M _ (fun i => B i a * B i a)) by (intros; ring). rewrite HU by exact Ha. unfold delta. rewrite Nat.eqb_refl. reflexivity. }
  assert (Z : forall i, (i < M)%nat -> res i = 0).
  { intros i Hi. apply (sumn_nonneg_0 M res); [|exact T|exact Hi]. intros. apply nrm2_nonneg. }
  (* the rows of B are orthonormal *)
  assert (Rows : forall i i', (i < M)%nat -> (i' < M)%nat -> sumn M (fun a => B i a * B i' a) = delta i i').
  { intros i i' Hi Hi'. pose proof (nrm2_0 M _ (Z i Hi) i' Hi') as G. unfold vsub in G.
    rewrite (sumn_ext M _ (fun a => B i a * B i' a)) in G by (intros; rewrite De by exact Hi; ring). unfold e in G. lra. }
  intros x i Hi. unfold mvec, coefs. rewrite (sumn_ext M _ (fun k => sumn M (fun i' => (B i k * B i' k) * x i'))).
  2:{ intros k _. rewrite <- sumn_scal. apply sumn_ext. intros. ring. }
  rewrite sumn_swap. rewrite (sumn_ext M _ (fun i' => delta i i' * x i')).
  - apply sumn_delta_l. exact Hi.
  - intros i' Hi'. rewrite sumn_scal_r, Rows by assumption. reflexivity.
Qed.
Print Assumptions C92_pca_synthesis.

(** With fewer observations than variables it is not: vectors outside the span of the data are lost. *)
Theorem C92_pca_synthesis_refuted : exists svd M N U,
  let '(B, L, C) := pca svd M N U false in let X := data U C in
  (forall Z, (forall i j, (i < M)%nat -> (j < N)%nat -> Z i j = X i j) -> is_sorted_svd M N X (svd M N Z)) /\
  exists x, mvec (Nat.min M N) B (coefs M B x) 1%nat <> x 1%nat.
Proof.
  exists (fun _ _ _ => ((fun i _ => match i with O => 1 | _ => 0 end), (fun _ => 2), (fun _ _ => 1))), 2%nat, 1%nat, (fun i _ => match i with O => 2 | _ => 0 end).
  cbn [pca]. split.
  - intros Z HZ. split; [|intros k Hk; cbn in Hk; lia]. unfold is_svd. cbn [Nat.min]. repeat split.
    + intros [|a] [|b] Ha Hb; try lia. cbn [sumn]. unfold delta. cbn. ring.
    + intros [|a] [|b] Ha Hb; try lia. cbn [sumn]. unfold delta. cbn. ring.
    + intros. lra.
    + intros [|[|i]] [|j] Hi Hj; try lia; unfold data; cbn [sumn]; ring.
  - exists (fun _ => 1). unfold mvec, coefs. cbn [Nat.min sumn]. lra.
Qed.
Print Assumptions C92_pca_synthesis_refuted.

(** ** Block circulant matrices *)
Definition noblock : block := mkblock 0 0 (fun _ _ => 0).

Lemma nth_first A0 (A : list block) l : (l < length (A0 :: A))%nat -> nth l (A0 :: A) A0 = nth l (A0 :: A) noblock.
Proof. intros H. apply nth_indep. exact H. Qed.

(** Blocks of one shape: block (i, k) of the result is the block number i - k modulo n, converted to the type of the first block;
    without loss in the conversion the product with a vector is the circular convolution of the blocks with the parts of the
    vector. *)
Theorem C92_circulant : forall cast A r c, A <> [] -> (forall X, In X A -> brows X = r /\ bcols X = c) ->
  exists B, block_circulant cast A = Some B /\ let n := length A in
  (forall i k a b, (i < n)%nat -> (k < n)%nat -> (a < r)%nat -> (b < c)%nat ->
     B (i * r + a)%nat (k * c + b)%nat = cast (bget (nth ((i + n - k) mod n) A noblock) a b)) /\
  ((forall X a b, In X A -> (a < r)%nat -> (b < c)%nat -> cast (bget X a b) = bget X a b) ->
   forall x i a, (i < n)%nat -> (a < r)%nat -> (0 < c)%nat ->
     mvec (n * c) B x (i * r + a)%nat = sumn n (fun k => sumn c (fun b => bget (nth ((i + n - k) mod n) A noblock) a b * x (k * c + b)%nat))).
Proof.
  intros cast [|A0 A] r c NE Hsh; [congruence|]. clear NE. set (l0 := A0 :: A) in *. set (n := length l0).
  assert (S0 : brows A0 = r /\ bcols A0 = c) by (apply Hsh; left; reflexivity). destruct S0 as [Er Ec].
  assert (Hf : forall l, (l < n)%nat -> fits r c (nth l l0 A0) = true).
  { intros l Hl. destruct (Hsh (nth l l0 A0)) as [R C]; [apply nth_In; exact Hl|]. unfold fits. rewrite R, C, !Nat.eqb_refl. reflexivity. }
  destruct (outer_some cast l0 A0 r c n (le_n _) Hf) as (B & E & HB). exists B.
  split; [unfold l0; rewrite block_circulant_unfold, Er, Ec; exact E|].
  assert (Ent : forall i k a b, (i < n)%nat -> (k < n)%nat -> (a < r)%nat -> (b < c)%nat ->
     B (i * r + a)%nat (k * c + b)%nat = cast (bget (nth ((i + n - k) mod n) l0 noblock) a b)).
  { intros i k a b Hi Hk Ha Hb. rewrite HB by (fold n; nia). fold n. rewrite dm_div by exact Hb. replace (Nat.ltb k n) with true by (symmetry; apply Nat.ltb_lt; exact Hk).
    unfold value. fold n. rewrite !dm_div, !dm_mod by assumption. f_equal.
    assert (Hm : ((i + n - k) mod n < n)%nat) by (apply Nat.mod_upper_bound; lia). unfold l0 at 1. rewrite nth_first by exact Hm. fold l0.
    destruct (Hsh (nth ((i + n - k) mod n) l0 noblock)) as [R C]; [apply nth_In; exact Hm|]. unfold elem. rewrite R, C.
    destruct (Nat.eqb_spec r 1); destruct (Nat.eqb_spec c 1); f_equal; lia. }
  split; [exact Ent|]. intros Hc x i a Hi Ha Hcp. unfold mvec. rewrite (AdmmProps.sumn_flat c n) by exact Hcp. apply sumn_ext. intros k Hk. apply sumn_ext. intros b Hb.
  rewrite Ent by assumption. rewrite Hc; [reflexivity| |exact Ha|exact Hb]. apply nth_In. apply Nat.mod_upper_bound. lia.
Qed.
Print Assumptions C92_circulant.

(** It raises exactly for an empty tuple, or when some block neither has the shape of the first one nor can be stretched to it. *)
Theorem C92_circulant_raises : forall cast A, block_circulant cast A = None <->
  match A with [] => True | A0 :: _ =>
    exists X, In X A /\ ~ ((brows X = brows A0 \/ brows X = 1%nat) /\ (bcols X = bcols A0 \/ bcols X = 1%nat)) end.
Proof.
  intros cast [|A0 A]; [split; auto|]. set (l0 := A0 :: A).
  assert (Fit : forall X, fits (brows A0) (bcols A0) X = true <-> (brows X = brows A0 \/ brows X = 1%nat) /\ (bcols X = bcols A0 \/ bcols X = 1%nat)).
  { intros X. unfold fits. rewrite andb_true_iff, !orb_true_iff, !Nat.eqb_eq. tauto. }
  split.
  - intros E. destruct (existsb (fun X => negb (fits (brows A0) (bcols A0) X)) l0) eqn:Ex.
    + apply existsb_exists in Ex. destruct Ex as (X & HX & F). exists X. split; [exact HX|]. rewrite <- Fit. intros Q. rewrite Q in F. discriminate.
    + exfalso. destruct (outer_some cast l0 A0 (brows A0) (bcols A0) (length l0) (le_n _)) as (B & EB & _).
      * intros l Hl. destruct (fits (brows A0) (bcols A0) (nth l l0 A0)) eqn:F; [reflexivity|].
        assert (Ex' : existsb (fun X => negb (fits (brows A0) (bcols A0) X)) l0 = true) by (apply existsb_exists; exists (nth l l0 A0); split; [apply nth_In; exact Hl|rewrite F; reflexivity]).
        congruence.
      * unfold l0 in E. rewrite block_circulant_unfold in E. fold l0 in E. congruence.
  - intros (X & HX & NF). destruct (In_nth l0 X A0 HX) as (l & Hl & El). unfold l0. rewrite block_circulant_unfold. fold l0.
    apply (outer_misfit cast l0 A0 (brows A0) (bcols A0) l Hl). rewrite El. rewrite <- Fit in NF. destruct (fits (brows A0) (bcols A0) X); [congruence|reflexivity].
Qed.
Print Assumptions C92_circulant_raises.

(** Later blocks are converted to the type of the first one: with integers first, fractions are lost without an exception. *)
Theorem C92_circulant_type_refuted : forall cast v, cast v <> v ->
  exists A B X, block_circulant cast A = Some B /\ (forall Y, In Y A -> brows Y = 1%nat /\ bcols Y = 1%nat) /\
    nth_error A 1 = Some X /\ bget X O O = v /\ B 1%nat O <> v.
Proof.
  intros cast v Hv. exists [mkblock 1 1 (fun _ _ => 1); mkblock 1 1 (fun _ _ => v)].
  destruct (C92_circulant cast [mkblock 1 1 (fun _ _ => 1); mkblock 1 1 (fun _ _ => v)] 1 1) as (B & E & H & _); [discriminate| |].
  { intros X [<-|[<-|[]]]; split; reflexivity. }
  exists B, (mkblock 1 1 (fun _ _ => v)). split; [exact E|]. split; [intros X [<-|[<-|[]]]; split; reflexivity|]. split; [reflexivity|]. split; [reflexivity|].
  pose proof (H 1%nat O O O ltac:(cbn; lia) ltac:(cbn; lia) ltac:(lia) ltac:(lia)) as Q. cbn in Q. rewrite Q. exact Hv.
Qed.
Print Assumptions C92_circulant_type_refuted.

(** A block with one row is repeated, without an exception, where the first block has two. *)
Theorem C92_circulant_shape_refuted : exists A B, (exists X, In X A /\ brows X = 1%nat) /\ (exists X, In X A /\ brows X = 2%nat) /\
  block_circulant (fun x => x) A = Some B /\ B 2%nat O = 7 /\ B 3%nat O = 7.
Proof.
  eexists [mkblock 2 1 (fun i _ => INR i); mkblock 1 1 (fun _ _ => 7)], _. split; [eexists; split; [right; left; reflexivity|reflexivity]|].
  split; [eexists; split; [left; reflexivity|reflexivity]|]. split; [reflexivity|]. split; reflexivity.
Qed.
Print Assumptions C92_circulant_shape_refuted.

(** ** Instances *)
(** A 4 x 4 matrix whose rearrangement into 2 x 2 blocks is diagonal, with entries 3, 2, 1, 0. *)
Definition exA : sarr R := mksarr [4; 4]%nat [4; 1]%Z 0%Z
  (fun z => match z with Z0 => 3 | Zpos 12 => 2 | Zpos 3 => 1 | _ => 0 end).
Definition exs (k : nat) : R := match k with O => 3 | 1%nat => 2 | 2%nat => 1 | _ => 0 end.
Definition exd : nat -> nat -> R := fun i j => if Nat.eqb i j then 1 else 0.
Definition exsvd (M N : nat) (X : NucModel.mat) : NucModel.mat * (nat -> R) * NucModel.mat := (exd, exs, exd).

Lemma sum4 f : sumn 4 f = f O + f 1%nat + f 2%nat + f 3%nat.
Proof. cbn [sumn]. ring. Qed.

Example C92_instance : (forall X, holds_blocks 2 2 2 2 (fun p q => sget exA [p; q]) X -> is_sorted_svd (2 * 2) (2 * 2) X (exsvd (2 * 2)%nat (2 * 2)%nat X)) /\
  exists B C, nkp exsvd (fun x _ => x) exA (2, 2)%nat (2, 2)%nat = Some (B, C) /\ B O O * C O O = 3 /\ B 1%nat 1%nat * C 1%nat 1%nat = 0.
Proof.
  split.
  - intros X HX. change (2 * 2)%nat with 4%nat. split.
    + unfold is_svd, exsvd. change (Nat.min 4 4) with 4%nat.
      assert (D : forall a b, (a < 4)%nat -> (b < 4)%nat -> sumn 4 (fun i => exd i a * exd i b) = delta a b).
      { intros a b Ha Hb. rewrite sum4. unfold exd, delta. do 4 (try destruct a as [|a]; try lia); do 4 (try destruct b as [|b]; try lia); cbn; ring. }
      split; [exact D|]. split.
      { intros a b Ha Hb. rewrite <- (D a b Ha Hb). apply sumn_ext. intros i _. unfold exd. rewrite (Nat.eqb_sym a i), (Nat.eqb_sym b i). reflexivity. }
      split; [intros [|[|[|[|k]]]] Hk; unfold exs; lra || lia|].
      intros i j Hi Hj. rewrite sum4.
      assert (G := HX (i mod 2)%nat (i / 2)%nat (j mod 2)%nat (j / 2)%nat ltac:(apply Nat.mod_upper_bound; lia) ltac:(apply Nat.div_lt_upper_bound; lia) ltac:(apply Nat.mod_upper_bound; lia) ltac:(apply Nat.div_lt_upper_bound; lia)).
      rewrite !(Nat.mul_comm (_ / 2) 2), <- !Nat.div_mod in G by lia. rewrite G. unfold sget, addr, exA, exd, exs.
      do 4 (try destruct i as [|i]; try lia); do 4 (try destruct j as [|j]; try lia); cbn; ring.
    + intros [|[|[|k]]] Hk; cbn in *; unfold exs; lra || lia.
  - eexists _, _. split; [reflexivity|]. unfold reshape_F, exd, exs. cbn [fst snd Nat.eqb Nat.add Nat.mul]. pose proof (sqrt_sqrt 3 ltac:(lra)). split; nra.
Qed.
Example C92_circulant_instance : exists B, block_circulant (fun x => x) [mkblock 1 2 (fun _ b => INR b); mkblock 1 2 (fun _ b => 5 + INR b)] = Some B /\
  B O O = 0 /\ B O 2%nat = 5 /\ B 1%nat 1%nat = 5 + INR 1.
Proof. eexists. split; [reflexivity|]. repeat split; cbn; ring. Qed.
(** Two variables, two observations (1, 0) and (-1, 0), centred with mean zero: one component carries everything. *)
Example C92_pca_instance : let U := fun i j : nat => match i, j with O, O => 1 | O, 1%nat => -1 | _, _ => 0 end in
  let svd := fun (_ _ : nat) (_ : NucModel.mat) => (exd, (fun k : nat => match k with O => sqrt 2 | _ => 0 end),
    (fun k j : nat => match k, j with O, O => / sqrt 2 | O, _ => - / sqrt 2 | _, _ => / sqrt 2 end)) in
  let '(B, L, C) := pca svd 2 2 U true in let X := data U C in
  (forall Z, (forall i j, (i < 2)%nat -> (j < 2)%nat -> Z i j = X i j) -> is_sorted_svd 2 2 X (svd 2%nat 2%nat Z)) /\ L O = 2.
Proof.
  cbn [pca]. assert (P := sqrt_lt_R0 2 ltac:(lra)). assert (Q := sqrt_sqrt 2 ltac:(lra)).
  assert (I2 : / sqrt 2 * / sqrt 2 = / 2) by (rewrite <- Rinv_mult, Q; reflexivity).
  split; [|cbn; lra]. intros Z HZ. split; [|intros [|k] Hk; cbn in *; [lra|lia]]. unfold is_svd. cbn [Nat.min]. split; [|split; [|split]].
  - intros [|[|a]] [|[|b]] Ha Hb; try lia; unfold exd, delta; cbn; ring.
  - intros [|[|a]] [|[|b]] Ha Hb; try lia; unfold delta; cbn; lra.
  - intros [|[|k]] Hk; try lia; lra.
  - assert (I1 : sqrt 2 * / sqrt 2 = 1) by (field; lra). intros [|[|i]] [|[|j]] Hi Hj; try lia; unfold data, exd; cbn; lra.
Qed.
