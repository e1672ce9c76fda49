(** Proofs for C91: columns, cones and limits. *)
Require Import List Arith Reals Bool Lia Lra Psatz.
Require Import Verif.RVec Verif.Compact Verif.AdmmModel Verif.AdmmProofs Verif.AdmmConv Verif.InhProofs Verif.CmdModel Verif.CmdSpec.
Local Open Scope R_scope.

Lemma abs_squeeze (a b : nat -> R) : (forall k, Rabs (a k) <= b k) -> Un_cv b 0 -> Un_cv a 0.
Proof.
  intros H Hb e He. destruct (Hb e He) as [N HN]. exists N. intros k Hk. specialize (HN k Hk). specialize (H k). unfold R_dist in *. rewrite Rminus_0_r in *.
  pose proof (Rle_abs (b k)). lra.
Qed.
(** Choice over finitely many columns. *)
Lemma finite_choice (N : nat) (Q : nat -> R -> Prop) : (forall m, (m < N)%nat -> exists l, Q m l) -> exists lam, forall m, (m < N)%nat -> Q m (lam m).
Proof.
  induction N as [|N IH]; intros H; [exists (fun _ => 0); intros; lia|].
  destruct IH as [lam HL]; [intros m Hm; apply H; lia|]. destruct (H N ltac:(lia)) as [l Hl]. exists (fun m => if Nat.eqb m N then l else lam m).
  intros m Hm. destruct (Nat.eqb_spec m N) as [->|Ne]; [exact Hl|apply HL; lia].
Qed.

Section column.
Variables (n : nat) (zm nnc : bool).
Hypothesis Hn : (0 < n)%nat.
Hypothesis Hz : zm && nnc = false.
Notation cn := (cone n zm nnc).
Definition Pk (v : nat -> R) : nat -> R :=
  if zm then fun i => v i - sumn n v / INR n else if nnc then fun i => Rmax (v i) 0 else v.
Definition nz (v : nat -> R) : nat -> R := fun i => v i / (if Req_EM_T (nrm n v) 0 then 1 else nrm n v).

Lemma cone_ext v w : (forall i, (i < n)%nat -> v i = w i) -> cn v -> cn w.
Proof. intros E [A B]. split; [intros H; rewrite <- (A H); apply sumn_ext; intros; symmetry; apply E; assumption|intros H i Hi; rewrite <- E by exact Hi; apply B; assumption]. Qed.
Lemma cone_scal c v : 0 <= c -> cn v -> cn (vscal c v).
Proof. intros Hc [A B]. split; [intros H; unfold vscal; rewrite sumn_scal, A by exact H; ring|intros H i Hi; unfold vscal; apply Rmult_le_pos; auto]. Qed.
Lemma cone_comb t v w : 0 <= t <= 1 -> cn v -> cn w -> cn (fun i => v i + t * (w i - v i)).
Proof.
  intros Ht [A B] [C D]. split.
  - intros H. rewrite sumn_plus, sumn_scal, sumn_minus, A, C by exact H. ring.
  - intros H i Hi. specialize (B H i Hi). specialize (D H i Hi). nra.
Qed.
Lemma cone_0 : cn (fun _ => 0).
Proof. split; [intros _; apply sumn_0; reflexivity|intros; lra]. Qed.
Lemma INR_n : INR n <> 0. Proof. apply not_0_INR. lia. Qed.
Lemma Pk_cone v : cn (Pk v).
Proof.
  unfold Pk. destruct zm; [destruct nnc; [discriminate|]|destruct nnc].
  - split; [intros _|discriminate]. rewrite sumn_minus, sumn_const. field. exact INR_n.
  - split; [discriminate|intros _ i _; apply Rmax_r].
  - split; discriminate.
Qed.
Lemma Pk_orth v : dot n (vsub v (Pk v)) (Pk v) = 0.
Proof.
  unfold dot, vsub, Pk. destruct zm; [destruct nnc; [discriminate|]|destruct nnc].
  - rewrite (sumn_ext n _ (fun i => sumn n v / INR n * (v i - sumn n v / INR n))) by (intros; ring). rewrite sumn_scal, sumn_minus, sumn_const. field. exact INR_n.
  - apply sumn_0. intros i _. unfold Rmax. destruct (Rle_dec (v i) 0); ring.
  - apply sumn_0. intros. ring.
Qed.
Lemma Pk_polar v x : cn x -> dot n (vsub v (Pk v)) x <= 0.
Proof.
  intros [A B]. unfold dot, vsub, Pk. destruct zm; [destruct nnc; [discriminate|]|destruct nnc].
  - rewrite (sumn_ext n _ (fun i => sumn n v / INR n * x i)) by (intros; ring). rewrite sumn_scal, A by reflexivity. lra.
  - apply Rle_trans with (sumn n (fun _ => 0)); [|right; apply sumn_0; reflexivity]. apply sumn_le. intros i Hi. specialize (B eq_refl i Hi). unfold Rmax. destruct (Rle_dec (v i) 0); nra.
  - right. apply sumn_0. intros. ring.
Qed.
(** The projection onto the cone is determined by the three properties. *)
Lemma Pk_unique v p : cn p -> dot n (vsub v p) p = 0 -> (forall x, cn x -> dot n (vsub v p) x <= 0) -> forall i, (i < n)%nat -> Pk v i = p i.
Proof.
  intros C1 C2 C3. assert (E : nrm2 n (vsub (Pk v) p) <= 0).
  { pose proof (Pk_polar v p C1) as A. pose proof (C3 (Pk v) (Pk_cone v)) as B. pose proof (Pk_orth v) as O.
    unfold nrm2. rewrite !dot_sub_l in *. rewrite !dot_sub_r. rewrite (dot_comm n p (Pk v)) in *. lra. }
  intros i Hi. pose proof (nrm2_0 n (vsub (Pk v) p) ltac:(pose proof (nrm2_nonneg n (vsub (Pk v) p)); lra) i Hi) as Q. unfold vsub in Q. lra.
Qed.
Lemma Pk_ext v w : (forall i, (i < n)%nat -> v i = w i) -> forall i, (i < n)%nat -> Pk v i = Pk w i.
Proof. intros E i Hi. unfold Pk. rewrite (sumn_ext n v w E). destruct zm; [rewrite (E i Hi); reflexivity|]. destruct nnc; [rewrite (E i Hi); reflexivity|apply E; exact Hi]. Qed.
Lemma nz_ext v w : (forall i, (i < n)%nat -> v i = w i) -> forall i, (i < n)%nat -> nz v i = nz w i.
Proof. intros E i Hi. unfold nz. rewrite (nrm_ext n v w E), (E i Hi). reflexivity. Qed.
Lemma nz_norm v : nrm2 n (nz v) = if Req_EM_T (nrm n v) 0 then 0 else 1.
Proof.
  assert (E : nrm2 n (nz v) = / (if Req_EM_T (nrm n v) 0 then 1 else nrm n v) * / (if Req_EM_T (nrm n v) 0 then 1 else nrm n v) * nrm2 n v).
  { rewrite <- nrm2_scal. apply nrm2_ext. intros i _. unfold nz, vscal, Rdiv. ring. }
  rewrite E, <- nrm_sqr. destruct (Req_EM_T (nrm n v) 0) as [H|H]; [rewrite H; field|field; exact H].
Qed.
Lemma nz_times v i : (i < n)%nat -> nrm n v * nz v i = v i.
Proof. intros Hi. unfold nz. destruct (Req_EM_T (nrm n v) 0) as [H|H]; [rewrite H, (nrm_0 n v H i Hi); field|field; exact H]. Qed.
Lemma nz_scal c d i : 0 < c -> nrm2 n d = 1 \/ nrm2 n d = 0 -> (i < n)%nat -> nz (vscal c d) i = d i.
Proof.
  intros Hc Hd Hi. unfold nz. rewrite nrm_scal, Rabs_pos_eq by lra. unfold vscal. destruct Hd as [H|H].
  - unfold nrm. rewrite H, sqrt_1. destruct (Req_EM_T (c * 1) 0); [lra|]. field. lra.
  - rewrite (nrm2_0 n d H i Hi). unfold Rdiv. ring.
Qed.
Lemma nz_cone v : cn v -> cn (nz v).
Proof.
  intros H. apply (cone_ext (vscal (/ (if Req_EM_T (nrm n v) 0 then 1 else nrm n v)) v)); [intros; unfold vscal, nz, Rdiv; ring|].
  apply cone_scal; [|exact H]. left. apply Rinv_0_lt_compat. pose proof (nrm_nonneg n v). destruct (Req_EM_T (nrm n v) 0); lra.
Qed.
(** The nearest point of the cone with norm one. *)
Lemma nz_nearest v x : cn x -> nrm2 n x = 1 -> nrm2 n (vsub (nz (Pk v)) v) <= nrm2 n (vsub x v).
Proof.
  intros Cx Nx. set (p := Pk v). assert (O : dot n v p = nrm2 n p) by (pose proof (Pk_orth v) as O; rewrite dot_sub_l in O; fold p in O; unfold nrm2; lra).
  pose proof (Pk_polar v x Cx) as B. rewrite dot_sub_l in B. fold p in B. pose proof (dot_le n p x) as CS. assert (Nx' : nrm n x = 1) by (unfold nrm; rewrite Nx; apply sqrt_1). rewrite Nx' in CS.
  assert (E : dot n (nz p) v = nrm n p).
  { transitivity (/ (if Req_EM_T (nrm n p) 0 then 1 else nrm n p) * dot n p v); [rewrite <- dot_scal_l; apply dot_ext; intros; unfold nz, vscal, Rdiv; [ring|reflexivity]|].
    rewrite (dot_comm n p v), O, <- nrm_sqr. destruct (Req_EM_T (nrm n p) 0) as [H|H]; [rewrite H; field|field; exact H]. }
  rewrite !nrm2_sub, E, Nx, nz_norm, (dot_comm n x v). destruct (Req_EM_T (nrm n p) 0) as [H|H]; [rewrite H in *|]; lra.
Qed.

(** Variational inequality at a column. *)
Definition vi (lam : R) (g d : nat -> R) : Prop := forall x, cn x -> 0 <= dot n (fun i => g i - lam * d i) (vsub x d).
Lemma fixed_vi b d g : 0 < b ->
  ((forall i, (i < n)%nat -> nz (Pk (fun i => d i - 1 / b * g i)) i = d i) <-> cn d /\ (nrm2 n d = 1 \/ nrm2 n d = 0) /\ exists lam, lam < b /\ vi lam g d).
Proof.
  intros Hb. set (v := fun i => d i - 1 / b * g i). split.
  - intros H. set (p := Pk v) in *.
    assert (Nd : nrm2 n d = if Req_EM_T (nrm n p) 0 then 0 else 1) by (rewrite <- nz_norm; apply nrm2_ext; intros; symmetry; apply H; assumption).
    split; [apply (cone_ext (nz p)); [exact H|apply nz_cone; apply Pk_cone]|]. split; [rewrite Nd; destruct (Req_EM_T (nrm n p) 0); auto|].
    pose proof (nrm_nonneg n p) as Np. destruct (Req_EM_T (nrm n p) 0) as [E|E].
    + exists 0. split; [exact Hb|]. intros x Cx. pose proof (Pk_polar v x Cx) as B. pose proof (nrm2_0 n d Nd) as D0. pose proof (nrm_0 n p E) as P0.
      assert (Q : dot n (vsub v (Pk v)) x = - / b * dot n (fun i => g i - 0 * d i) (vsub x d)).
      { fold p. unfold dot. rewrite <- sumn_scal. apply sumn_ext. intros i Hi. unfold vsub, v. rewrite (P0 i Hi), (D0 i Hi). field. lra. }
      rewrite Q in B. pose proof (Rinv_0_lt_compat b Hb). nra.
    + exists (b * (1 - nrm n p)). split; [nra|]. intros x Cx.
      assert (Q : forall i, (i < n)%nat -> g i - b * (1 - nrm n p) * d i = - b * vsub v p i).
      { intros i Hi. pose proof (nz_times p i Hi) as T. rewrite H in T by exact Hi. unfold vsub, v. rewrite <- T. field. lra. }
      rewrite (dot_ext n _ (vsub x d) (vscal (- b) (vsub v p)) (vsub x d) Q (fun _ _ => eq_refl)), dot_scal_l, dot_sub_r. pose proof (Pk_polar v x Cx) as B. fold p in B.
      assert (Z0 : nrm n p * dot n (vsub v p) d = 0).
      { rewrite <- dot_scal_r. rewrite <- (Pk_orth v). fold p. apply dot_ext; [reflexivity|]. intros i Hi. unfold vscal. rewrite <- (H i Hi). apply nz_times. exact Hi. }
      assert (Z1 : dot n (vsub v p) d = 0) by (apply Rmult_integral in Z0; destruct Z0; [contradiction|assumption]). rewrite Z1. nra.
  - intros (Cd & Nd & lam & Hl & V). set (c := 1 - lam / b). assert (Hc : 0 < c) by (unfold c; apply Rlt_Rminus; apply (Rmult_lt_reg_r b); [exact Hb|]; unfold Rdiv; rewrite Rmult_assoc, Rinv_l by lra; lra).
    assert (T0 : dot n (fun i => g i - lam * d i) d = 0).
    { pose proof (V (fun _ => 0) cone_0) as A1. pose proof (V (vscal 2 d) (cone_scal 2 d ltac:(lra) Cd)) as A2.
      rewrite dot_sub_r in A1, A2. rewrite dot_scal_r in A2. assert (dot n (fun i => g i - lam * d i) (fun _ => 0) = 0) by (apply sumn_0; intros; ring). lra. }
    assert (E : forall i, (i < n)%nat -> Pk v i = vscal c d i).
    { assert (Q : forall i, (i < n)%nat -> vsub v (vscal c d) i = vscal (- / b) (fun i => g i - lam * d i) i) by (intros i _; unfold vsub, vscal, v, c; field; lra).
      apply Pk_unique.
      - apply cone_scal; [lra|exact Cd].
      - rewrite (dot_ext n _ (vscal c d) _ (vscal c d) Q (fun _ _ => eq_refl)), dot_scal_l, dot_scal_r, T0. ring.
      - intros x Cx. rewrite (dot_ext n _ x _ x Q (fun _ _ => eq_refl)), dot_scal_l. pose proof (V x Cx) as A. rewrite dot_sub_r, T0 in A. pose proof (Rinv_0_lt_compat b Hb). nra. }
    intros i Hi. rewrite (nz_ext _ _ E i Hi). apply nz_scal; assumption.
Qed.
Lemma cv_Pk (vk : nat -> nat -> R) v : (forall i, (i < n)%nat -> Un_cv (fun k => vk k i) (v i)) -> forall i, (i < n)%nat -> Un_cv (fun k => Pk (vk k) i) (Pk v i).
Proof.
  intros H i Hi. unfold Pk. destruct zm; [destruct nnc; [discriminate|]|destruct nnc].
  - apply CV_minus; [apply H; exact Hi|]. unfold Rdiv. apply CV_mult; [apply cv_sumn; exact H|apply cv_const].
  - apply cv_max0. apply H. exact Hi.
  - apply H. exact Hi.
Qed.
Lemma cv_unit (a : nat -> R) l : (forall k, a k = 1 \/ a k = 0) -> Un_cv a l -> l = 1 \/ l = 0.
Proof.
  intros Ha Hl. assert (E : l * (l - 1) = 0).
  { apply (UL_sequence (fun k => a k * (a k - 1))); [apply CV_mult; [exact Hl|apply CV_minus; [exact Hl|apply cv_const]]|].
    apply (cv_ext (fun _ => 0)); [intros k; destruct (Ha k) as [->| ->]; ring|apply cv_const]. }
  apply Rmult_integral in E. destruct E; [right; assumption|left; lra].
Qed.
Lemma cv_nrm2 (vk : nat -> nat -> R) v : (forall i, (i < n)%nat -> Un_cv (fun k => vk k i) (v i)) -> Un_cv (fun k => nrm2 n (vk k)) (nrm2 n v).
Proof. intros H. unfold nrm2, dot. apply (cv_sumn n (fun k i => vk k i * vk k i) (fun i => v i * v i)). intros i Hi. apply CV_mult; apply H; exact Hi. Qed.
Lemma cone_limit (dk : nat -> nat -> R) d : (forall k, cn (dk k)) -> (forall i, (i < n)%nat -> Un_cv (fun k => dk k i) (d i)) -> cn d.
Proof.
  intros Hk Hd. split.
  - intros H. apply (UL_sequence (fun k => sumn n (dk k))); [apply (cv_sumn n dk d Hd)|]. apply (cv_ext (fun _ => 0)); [intros k; symmetry; apply (Hk k); exact H|apply cv_const].
  - intros H i Hi. apply (cv_le (fun _ => 0) (fun k => dk k i)); [intros k; apply (Hk k); assumption|apply cv_const|apply Hd; exact Hi].
Qed.
Lemma limit_vi b (vk dk : nat -> nat -> R) v d g : 0 < b ->
  (forall k i, (i < n)%nat -> dk k i = nz (Pk (vk k)) i) -> (forall i, (i < n)%nat -> Un_cv (fun k => vk k i) (v i)) -> (forall i, (i < n)%nat -> Un_cv (fun k => dk k i) (d i)) ->
  (forall i, (i < n)%nat -> v i = d i - 1 / b * g i) -> cn d /\ (nrm2 n d = 1 \/ nrm2 n d = 0) /\ exists lam, lam <= b /\ vi lam g d.
Proof.
  intros Hb Hk Hv Hd Ev. set (p := Pk v). set (pk := fun k => Pk (vk k)).
  assert (Hp : forall i, (i < n)%nat -> Un_cv (fun k => pk k i) (p i)) by (apply cv_Pk; exact Hv).
  assert (Np : Un_cv (fun k => nrm n (pk k)) (nrm n p)).
  { unfold nrm. apply continuity_seq; [apply continuity_pt_sqrt; apply nrm2_nonneg|]. apply cv_nrm2. exact Hp. }
  split; [apply (cone_limit dk d); [|exact Hd]; intros k; apply (cone_ext (nz (pk k))); [intros; symmetry; apply Hk; assumption|apply nz_cone, Pk_cone]|].
  split.
  { apply (cv_unit (fun k => nrm2 n (dk k))); [|apply cv_nrm2; exact Hd]. intros k.
    replace (nrm2 n (dk k)) with (nrm2 n (nz (pk k))) by (apply nrm2_ext; intros; symmetry; apply Hk; assumption). rewrite nz_norm. destruct (Req_EM_T (nrm n (pk k)) 0); auto. }
  exists (b * (1 - nrm n p)). split; [pose proof (nrm_nonneg n p); nra|]. intros x Cx.
  assert (T : forall i, (i < n)%nat -> nrm n p * d i = p i).
  { intros i Hi. apply (UL_sequence (fun k => pk k i)); [|apply Hp; exact Hi]. apply (cv_ext (fun k => nrm n (pk k) * dk k i)); [intros k; rewrite Hk by exact Hi; apply nz_times; exact Hi|].
    apply CV_mult; [exact Np|apply Hd; exact Hi]. }
  assert (Z0 : dot n (vsub v p) d = 0).
  { apply (UL_sequence (fun k => dot n (vsub (vk k) (pk k)) (dk k))).
    - unfold dot, vsub. apply (cv_sumn n (fun k i => (vk k i - pk k i) * dk k i) (fun i => (v i - p i) * d i)). intros i Hi. apply CV_mult; [apply CV_minus; [apply Hv|apply Hp]|apply Hd]; exact Hi.
    - apply (cv_ext (fun _ => 0)); [|apply cv_const]. intros k. symmetry. transitivity (/ (if Req_EM_T (nrm n (pk k)) 0 then 1 else nrm n (pk k)) * dot n (vsub (vk k) (pk k)) (pk k)).
      + rewrite <- dot_scal_r. apply dot_ext; [reflexivity|]. intros i Hi. rewrite Hk by exact Hi. unfold nz, vscal, Rdiv, pk. ring.
      + unfold pk. rewrite Pk_orth. ring. }
  assert (Q : forall i, (i < n)%nat -> g i - b * (1 - nrm n p) * d i = - b * vsub v p i) by (intros i Hi; unfold vsub; rewrite (Ev i Hi), <- (T i Hi); field; lra).
  rewrite (dot_ext n _ (vsub x d) (vscal (- b) (vsub v p)) (vsub x d) Q (fun _ _ => eq_refl)), dot_scal_l, dot_sub_r, Z0. pose proof (Pk_polar v x Cx) as B. fold p in B. nra.
Qed.
End column.

Section matrices.
Variables (Nc Nm Ns : nat) (Z S W : matrix) (zm nnc : bool).
Hypothesis Hz : zm && nnc = false.
Notation mf := (misfit Nc Nm Ns Z S W).
Notation G := (wgrad_f Nm Ns Z S W).
Definition energy (E : matrix) : R := / 2 * sumn Nc (fun i => sumn Ns (fun n => W i n * dotZ Nm Z E i n ^ 2)).
Lemma misfit_expand D X : mf X = mf D + sumn Nm (fun m => dot Nc (col (G D) m) (vsub (col X m) (col D m))) + energy (fun i m => X i m - D i m).
Proof.
  assert (E1 : sumn Nm (fun m => dot Nc (col (G D) m) (vsub (col X m) (col D m))) = sumn Nc (fun i => sumn Ns (fun n => W i n * (dotZ Nm Z D i n - S i n) * dotZ Nm Z (fun i m => X i m - D i m) i n))).
  { unfold dot. rewrite sumn_swap. apply sumn_ext. intros i _. unfold col, vsub, wgrad_f, dotZT.
    transitivity (sumn Nm (fun m => sumn Ns (fun n => W i n * (dotZ Nm Z D i n - S i n) * ((X i m - D i m) * Z m n)))); [apply sumn_ext; intros m _; rewrite <- sumn_scal_r; apply sumn_ext; intros; ring|].
    rewrite sumn_swap. apply sumn_ext. intros n _. unfold dotZ. rewrite sumn_scal. reflexivity. }
  rewrite E1. unfold misfit, energy. rewrite Rplus_assoc, (Rplus_comm _ (/ 2 * _)), <- Rplus_assoc, <- Rmult_plus_distr_l.
  match goal with |- / 2 * ?a = / 2 * (?b + ?c) + ?d => enough (K : a = b + c + 2 * d) by (rewrite K; field) end.
  rewrite <- sumn_scal, <- !sumn_plus. apply sumn_ext. intros i _. rewrite <- sumn_scal, <- !sumn_plus. apply sumn_ext. intros n _.
  assert (K : sumn Nm (fun m => X i m * Z m n) = dotZ Nm Z D i n + dotZ Nm Z (fun i m => X i m - D i m) i n) by (unfold dotZ; rewrite <- sumn_plus; apply sumn_ext; intros; ring).
  rewrite K. unfold dotZ. ring.
Qed.
Hypothesis HW : forall i n, (i < Nc)%nat -> (n < Ns)%nat -> 0 <= W i n.
Lemma energy_nonneg E : 0 <= energy E.
Proof. unfold energy. apply Rmult_le_pos; [lra|]. apply sumn_nonneg. intros i Hi. apply sumn_nonneg. intros n Hn. apply Rmult_le_pos; [apply HW; assumption|apply pow2_ge_0]. Qed.
Lemma energy_scal t E : energy (fun i m => t * E i m) = t * t * energy E.
Proof.
  unfold energy. rewrite (Rmult_comm (t * t)), Rmult_assoc. f_equal. rewrite <- sumn_scal_r. apply sumn_ext. intros i _. rewrite <- sumn_scal_r. apply sumn_ext. intros n _.
  replace (dotZ Nm Z (fun i m => t * E i m) i n) with (t * dotZ Nm Z E i n) by (unfold dotZ; rewrite <- sumn_scal; apply sumn_ext; intros; ring). ring.
Qed.
(** Curvature. *)
Lemma energy_bound wmax E : (forall i n, (i < Nc)%nat -> (n < Ns)%nat -> W i n <= wmax) ->
  energy E <= wmax * sumn Ns (fun n => sumn Nm (fun m => Z m n ^ 2)) / 2 * sumn Nm (fun m => nrm2 Nc (col E m)).
Proof.
  intros Hm. set (q := sumn Ns (fun n => sumn Nm (fun m => Z m n ^ 2))).
  assert (Q : sumn Nc (fun i => sumn Ns (fun n => W i n * dotZ Nm Z E i n ^ 2)) <= sumn Nc (fun i => wmax * q * sumn Nm (fun m => E i m * E i m))).
  { apply sumn_le. intros i Hi. unfold q. rewrite (Rmult_comm (wmax * _)), <- Rmult_assoc, <- sumn_scal. apply sumn_le. intros n Hn.
    pose proof (cauchy_schwarz_sq Nm (E i) (fun m => Z m n)) as CS. unfold nrm2, dot in CS.
    assert (E2 : sumn Nm (fun m => Z m n ^ 2) = sumn Nm (fun m => Z m n * Z m n)) by (apply sumn_ext; intros; ring). rewrite E2. unfold dotZ.
    set (a := sumn Nm (fun m => E i m * Z m n)) in *. set (e := sumn Nm (fun m => E i m * E i m)) in *. set (zz := sumn Nm (fun m => Z m n * Z m n)) in *.
    pose proof (HW i n Hi Hn). pose proof (Hm i n Hi Hn). assert (0 <= a * a) by (pose proof (Rle_0_sqr a); unfold Rsqr in *; assumption).
    replace (a ^ 2) with (a * a) by ring. apply Rle_trans with (wmax * (a * a)); [apply Rmult_le_compat_r; assumption|]. replace (e * wmax * zz) with (wmax * (e * zz)) by ring. apply Rmult_le_compat_l; [lra|exact CS]. }
  unfold energy. rewrite sumn_scal in Q. rewrite (sumn_swap Nc Nm (fun i m => E i m * E i m)) in Q. change (fun m => nrm2 Nc (col E m)) with (fun m => sumn Nc (fun i => E i m * E i m)). unfold Rdiv. fold q. lra.
Qed.
(** The variational inequalities of the columns and the first order condition. *)
Lemma vi_first_order lam D : in_cone Nc Nm zm nnc D -> unit_or_zero Nc Nm D ->
  ((forall m, (m < Nm)%nat -> vi Nc zm nnc (lam m) (col (G D) m) (col D m)) <-> first_order Nc Nm Ns Z S W zm nnc lam D).
Proof.
  intros CD UD. split.
  - intros V. split; [exact CD|]. split; [exact UD|]. intros X CX. rewrite (misfit_expand D X). pose proof (energy_nonneg (fun i m => X i m - D i m)) as En.
    assert (Q : sumn Nm (fun m => lam m * (dot Nc (col D m) (col X m) - nrm2 Nc (col D m))) <= sumn Nm (fun m => dot Nc (col (G D) m) (vsub (col X m) (col D m)))); [|lra].
    apply sumn_le. intros m Hm. pose proof (V m Hm (col X m) (CX m Hm)) as A. change (fun i => col (G D) m i - lam m * col D m i) with (vsub (col (G D) m) (vscal (lam m) (col D m))) in A.
    rewrite dot_sub_l, dot_scal_l, (dot_sub_r Nc (col X m) (col D m) (col D m)) in A.
    unfold nrm2. idtac. lra.
  - intros (_ & _ & F) m Hm x Cx. destruct (Rle_lt_dec 0 (dot Nc (fun i => col (G D) m i - lam m * col D m i) (vsub x (col D m)))) as [|N]; [assumption|exfalso].
    set (a := dot Nc (fun i => col (G D) m i - lam m * col D m i) (vsub x (col D m))) in *. set (E := fun i k => if Nat.eqb k m then x i - D i m else 0). pose proof (energy_nonneg E) as En.
    set (t := Rmin 1 (- a / (2 * (energy E + 1)))). assert (Ht : 0 < t <= 1).
    { unfold t. split; [apply Rmin_glb_lt; [lra|apply Rdiv_lt_0_compat; lra]|apply Rmin_l]. }
    set (X := fun i k => D i k + t * E i k).
    assert (CX : in_cone Nc Nm zm nnc X).
    { intros k Hk. unfold X, E. destruct (Nat.eqb_spec k m) as [->|Nk].
      - apply (cone_ext Nc zm nnc (fun i => col D m i + t * (x i - col D m i))); [intros; unfold col; rewrite Nat.eqb_refl; reflexivity|]. apply cone_comb; [lra|apply CD; exact Hm|exact Cx].
      - apply (cone_ext Nc zm nnc (col D k)); [intros; unfold col; destruct (Nat.eqb_spec k m); [contradiction|ring]|]. apply CD. exact Hk. }
    pose proof (F X CX) as FX. rewrite (misfit_expand D X) in FX.
    assert (E1 : energy (fun i k => X i k - D i k) = t * t * energy E).
    { rewrite <- energy_scal. unfold energy. f_equal. apply sumn_ext. intros. apply sumn_ext. intros. f_equal. f_equal. unfold dotZ. apply sumn_ext. intros. unfold X. ring. }
    assert (E2 : sumn Nm (fun k => dot Nc (col (G D) k) (vsub (col X k) (col D k))) - sumn Nm (fun k => lam k * (dot Nc (col D k) (col X k) - nrm2 Nc (col D k))) = t * a).
    { rewrite <- sumn_minus. rewrite (sumn_ext Nm _ (fun k => if Nat.eqb k m then t * a else 0)); [apply (sumn_delta Nm m (fun _ => t * a) Hm)|].
      intros k Hk. unfold nrm2. rewrite <- dot_sub_r, <- dot_scal_l, <- dot_sub_l. destruct (Nat.eqb_spec k m) as [->|Nk].
      - unfold a. rewrite <- dot_scal_r. apply dot_ext; intros i _; unfold vsub, vscal, col, X, E; [reflexivity|]. rewrite Nat.eqb_refl. ring.
      - unfold dot. apply sumn_0. intros i _. unfold vsub, col, X, E. destruct (Nat.eqb_spec k m); [contradiction|ring]. }
    rewrite E1 in FX. assert (t * a + t * t * energy E < 0); [|lra].
    assert (T2 : t * (2 * (energy E + 1)) <= - a).
    { unfold t. apply Rle_trans with (- a / (2 * (energy E + 1)) * (2 * (energy E + 1))); [apply Rmult_le_compat_r; [lra|apply Rmin_r]|right; field; lra]. }
    nra.
Qed.
End matrices.
