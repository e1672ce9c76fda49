(** Convergence of the iterations of the parallel solver. *)
Require Import List Reals Lra Lia Arith Bool FunctionalExtensionality.
Require Import Verif.RVec Verif.ProxModel Verif.AdmmModel Verif.AdmmSpec Verif.AdmmProofs Verif.AdmmConv Verif.AdmmProps Verif.Compact Verif.AdmmLimit.
Require Import Verif.StepsModel Verif.StepsSpec Verif.StepsProofs Verif.LimitProofs Verif.CscIterProofs Verif.CscTwoProofs Verif.LimitTwo.
Require Import Verif.ParModel Verif.ParProofs Verif.ParSpec Verif.ParIter Verif.ParOpt Verif.ParLoop Verif.ParLimSpec.
Local Open Scope R_scope.
Local Notation vec := (nat -> R).

(** ** Splitting of a sum over the groups *)
Section Split.
Variables (nG P N : nat) (L : vec -> vec) (W Sg : vec) (E1 : vec -> Prop) (g1 : vec -> R) (rho : R).
Hypothesis HP : (0 < P)%nat.
Hypothesis HL : linear_map L.
Hypothesis Hloc : local_map N L.
Hypothesis C1 : convex_on E1 g1.
Hypothesis Hrho : 0 < rho.
Notation m0 := (nG * P)%nat.
Notation m := (nG * P + N)%nat.
Definition gsum (y : vec) (p : nat) : R := sumn nG (fun i => y (i * P + p)%nat).
Definition fitg (y : vec) : R := / 2 * nrm2 P (fun p => W p * (gsum y p - Sg p)).
Lemma gsum_loc x y p : (p < P)%nat -> (forall i, (i < m0)%nat -> x i = y i) -> gsum x p = gsum y p.
Proof. intros Hp H. apply sumn_ext. intros i Hi. apply H. nia. Qed.
Lemma fitg_loc x y : (forall i, (i < m0)%nat -> x i = y i) -> fitg x = fitg y.
Proof. intros H. unfold fitg. f_equal. apply nrm2_ext. intros p Hp. rewrite (gsum_loc x y p Hp H). reflexivity. Qed.
Lemma fitg_below r y : fitg r + dot P (fun p => W p ^ 2 * (gsum r p - Sg p)) (fun p => gsum y p - gsum r p) <= fitg y.
Proof.
  unfold fitg, nrm2, dot. rewrite <- !sumn_scal, <- sumn_plus. apply sumn_le. intros p _. pose proof (Rle_0_sqr (W p * (gsum y p - gsum r p))) as Q. unfold Rsqr in Q. nra.
Qed.
Lemma gsum_seg x y t p : gsum (seg x y t) p = gsum x p + t * (gsum y p - gsum x p).
Proof. unfold gsum, seg. rewrite sumn_plus, sumn_scal, sumn_minus. reflexivity. Qed.
Lemma fitg_convex : convex_on (fun _ => True) fitg.
Proof.
  intros x y t _ _ Ht. split; [exact I|]. unfold fitg, nrm2, dot.
  rewrite <- !sumn_scal. rewrite <- sumn_minus, <- sumn_scal, <- sumn_plus. apply sumn_le. intros p _. rewrite gsum_seg.
  set (a := gsum x p) in *. set (b := gsum y p) in *.
  pose proof (Rle_0_sqr (W p * (b - a))) as Q. unfold Rsqr in Q. assert (H : 0 <= t * (1 - t)) by nra. pose proof (Rmult_le_pos _ _ H Q). nra.
Qed.
Lemma fitg_lip : loc_lip m0 fitg.
Proof.
  unfold fitg. apply lip_scal. apply (lip_nrm2 m0 P (fun y p => W p * (gsum y p - Sg p))). intros p Hp. apply lip_scal.
  apply (lip_ext_fun m0 (fun y => gsum y p + - Sg p)); [intros; ring|]. apply lip_plus; [|apply lip_const].
  unfold gsum. apply (lip_sumn m0 nG (fun i y => y (i * P + p)%nat)). intros i Hi. apply lip_coord. nia.
Qed.
Lemma dot_flat a y : dot m0 (fun i => a (i mod P)%nat) y = dot P a (fun p => gsum y p).
Proof.
  unfold dot. rewrite (sumn_flat P nG) by exact HP. rewrite sumn_swap. apply sumn_ext. intros p Hp. unfold gsum. rewrite <- sumn_scal.
  apply sumn_ext. intros i _. f_equal. f_equal. rewrite Nat.add_comm, Nat.mod_add by lia. apply Nat.mod_small. exact Hp.
Qed.
(** The joint update: the same residual for every group. *)
Lemma fitg_sub y v : (forall i p, (i < nG)%nat -> (p < P)%nat -> W p ^ 2 * (gsum y p - Sg p) = rho * (v (i * P + p)%nat - y (i * P + p)%nat)) ->
  subgradient m0 (fun _ => True) fitg y (fun i => rho * (v i - y i)).
Proof.
  intros H z _. eapply Rle_trans; [|apply (fitg_below y z)]. apply Rplus_le_compat_l. right.
  unfold dot. rewrite (sumn_flat P nG) by exact HP. rewrite sumn_swap. apply sumn_ext. intros p Hp. unfold gsum at 2 3. rewrite <- sumn_minus, <- sumn_scal.
  apply sumn_ext. intros i Hi. rewrite <- (H i p Hi Hp). reflexivity.
Qed.
Notation A := (tA m0 L).
Notation c := (tc m0 (fun _ => 0)).
Notation E := (tE m0 (fun _ => True) E1).
Notation g := (tg m0 fitg g1).
Definition Lsum (x : vec) (p : nat) : R := gsum (L x) p.
Definition sobj (x : vec) : R := / 2 * nrm2 P (fun p => W p * (Lsum x p - Sg p)) + g1 x.
Lemma sobj_t x : tobj L (fun _ => 0) fitg g1 x = sobj x.
Proof. unfold tobj, sobj. f_equal. apply fitg_loc. intros. ring. Qed.
Lemma split_saddle p : argmin E1 sobj p -> exists u, saddle m A tb_B c rho (fun _ => True) E (fun _ => 0) g p (block_cat m0 (fun i => L p i - 0) p) u.
Proof.
  intros [Ep Hp]. set (L' := fun x q => W q * Lsum x q). set (s' := fun q => W q * Sg q).
  assert (HL' : linear_map L').
  { intros a x b y q. unfold L', Lsum, gsum. rewrite (sumn_ext nG _ (fun i => a * L x (i * P + q)%nat + b * L y (i * P + q)%nat)) by (intros; apply HL).
    rewrite sumn_plus, !sumn_scal. ring. }
  assert (Hl' : local_map N L') by (intros x y Hxy q; unfold L', Lsum, gsum; f_equal; apply sumn_ext; intros; apply Hloc; exact Hxy).
  destruct (adjoint_exists N P L' HL' Hl') as [LT HA].
  assert (Ef : forall x, / 2 * nrm2 P (fun q => W q * (Lsum x q - Sg q)) = sc_f N P L' s' 0 x).
  { intros x. unfold sc_f, lsq, ridge. rewrite (nrm2_ext P (fun q => W q * (Lsum x q - Sg q)) (fun i => L' x i - s' i)) by (intros; unfold L', s'; ring). lra. }
  assert (Hp' : argmin E1 (fun x => sc_f N P L' s' 0 x + g1 x) p).
  { split; [exact Ep|]. intros x Hx. specialize (Hp x Hx). unfold sobj in Hp. rewrite !Ef in Hp. exact Hp. }
  destruct (sc_saddle N P L' LT s' 0 HL' HA E1 g1 rho p ltac:(lra) Hrho C1 Hp') as [_ Sd].
  set (gr := sc_grad L' LT s' 0 p) in *. set (r := fun q => W q ^ 2 * (Lsum p q - Sg q)).
  exists (block_cat m0 (fun i => r (i mod P)%nat / rho) (fun i => - gr i / rho)). split.
  - apply (feas_of N m0 L (fun _ => 0) (fun _ => True) E1 (fun _ _ _ _ => I) p). split; [exact I|exact Ep].
  - intros x y _ [_ Ey]. specialize (Sd p (block_sep1 m0 y) I Ey).
    unfold tg. rewrite cat_sep1. rewrite (fitg_loc (block_sep0 (block_cat m0 (fun i => L p i - 0) p)) (L p)) by (intros i Hi; unfold block_sep0; rewrite cat_lt by exact Hi; ring).
    pose proof (fitg_below (L p) (block_sep0 y)) as Wb. change (fun p0 => W p0 ^ 2 * (gsum (L p) p0 - Sg p0)) with r in Wb. change (fun p0 => gsum (block_sep0 y) p0 - gsum (L p) p0) with (fun q => gsum (block_sep0 y) q - Lsum p q) in Wb.
    assert (Q1 : rho * dot N (fun i => - gr i / rho) (gap eq_A eq_B eq_c p (block_sep1 m0 y)) = dot N gr (fun i => block_sep1 m0 y i - p i)).
    { unfold dot. rewrite <- sumn_scal. apply sumn_ext. intros. unfold gap, eq_A, eq_B, eq_c. field. lra. }
    rewrite Q1 in Sd.
    assert (Q2 : dot P r (fun q => Lsum x q - Lsum p q) = dot N gr (fun i => x i - p i)).
    { transitivity (dot P (L' (fun i => x i - p i)) (fun i => L' p i - s' i)).
      - unfold dot. apply sumn_ext. intros q _. replace (fun i => x i - p i) with (fun i => 1 * x i + (-1) * p i) by (extensionality j; ring). rewrite HL'. unfold L', s', r. ring.
      - rewrite dot_comm. change (fun i => L' p i - s' i) with (vsub (L' p) s'). rewrite dot_sub_l, (dot_comm P (L' p)), (dot_comm P s'), !HA.
        unfold gr, sc_grad, dot. rewrite <- sumn_minus. apply sumn_ext. intros. ring. }
    assert (Q3 : rho * dot m (block_cat m0 (fun i => r (i mod P)%nat / rho) (fun i => - gr i / rho)) (gap A tb_B c x y) =
       dot P r (fun q => Lsum x q - Lsum p q) - dot P r (fun q => gsum (block_sep0 y) q - Lsum p q)
       - dot N gr (fun i => x i - p i) + dot N gr (fun i => block_sep1 m0 y i - p i)).
    { assert (Q4 : dot P r (fun q => Lsum x q - Lsum p q) - dot P r (fun q => gsum (block_sep0 y) q - Lsum p q) = dot m0 (fun i => r (i mod P)%nat) (fun i => L x i - y i)).
      { rewrite (dot_flat r). unfold dot. rewrite <- sumn_minus. apply sumn_ext. intros q Hq. unfold gsum. rewrite sumn_minus. unfold Lsum, gsum, block_sep0. ring. }
      rewrite Q4. unfold dot. rewrite sumn_split, Rmult_plus_distr_l, <- !sumn_scal. match goal with |- _ = ?D - ?F + ?G => replace (D - F + G) with (D + (G - F)) by ring end. f_equal.
      - apply sumn_ext; intros i Hi; unfold gap, tA, tc, tb_B. rewrite !cat_lt by exact Hi. field. lra.
      - rewrite <- sumn_minus. apply sumn_ext; intros i Hi; unfold gap, tA, tc, tb_B, block_sep1. rewrite !cat_ge. field. lra. }
    rewrite Q3, Q2. lra.
Qed.
End Split.

(** A minimiser of a |z| + 1/2 (z - v)^2 over an interval gives a subgradient. *)
Lemma scalar_sub (ok : R -> Prop) a v y : 0 <= a -> (forall s z t, ok s -> ok z -> 0 <= t <= 1 -> ok (s + t * (z - s))) -> ok y ->
  (forall z, ok z -> a * Rabs y + 1 / 2 * (y - v) ^ 2 <= a * Rabs z + 1 / 2 * (z - v) ^ 2) ->
  forall z, ok z -> a * Rabs y + (v - y) * (z - y) <= a * Rabs z.
Proof.
  intros Ha Hc Hy Hm z Hz. set (d := z - y). set (e := a * Rabs z - a * Rabs y - (v - y) * d).
  assert (K : forall t, 0 < t <= 1 -> 0 <= e + t / 2 * d ^ 2).
  { intros t Ht. specialize (Hm (y + t * d) (Hc y z t Hy Hz ltac:(lra))).
    assert (Q : Rabs (y + t * d) <= (1 - t) * Rabs y + t * Rabs z).
    { replace (y + t * d) with ((1 - t) * y + t * z) by (unfold d; ring). eapply Rle_trans; [apply Rabs_triang|]. rewrite !Rabs_mult, (Rabs_right (1 - t)), (Rabs_right t) by lra. lra. }
    assert (Q' : a * Rabs (y + t * d) <= a * ((1 - t) * Rabs y + t * Rabs z)) by (apply Rmult_le_compat_l; assumption).
    assert (T : 0 <= t * (e + t / 2 * d ^ 2)) by (unfold e; clearbody d; lra). apply (Rmult_le_reg_l t); [lra|]. rewrite Rmult_0_r. exact T. }
  destruct (Rle_lt_dec 0 e) as [h|h]; [unfold e in h; lra|exfalso].
  pose proof (K 1 ltac:(lra)) as K1. assert (Hd : 0 < d ^ 2) by nra.
  assert (T : 0 < - e / d ^ 2 <= 1). { split; [apply Rdiv_lt_0_compat; lra|]. apply (Rmult_le_reg_r (d ^ 2)); [exact Hd|]. unfold Rdiv. rewrite Rmult_assoc, Rinv_l by lra. nra. }
  specialize (K _ T). replace (- e / d ^ 2 / 2 * d ^ 2) with (- e / 2) in K by (field; intros Q; rewrite Q in Hd; simpl in Hd; lra). lra.
Qed.

(** ** The solver *)
(** The data of the solver and of the problem: the filters of the problem divided into the groups of the solver. *)
Record divides (c : params) (q : problem) (b : cbpdn) : Prop := {
  dv_M : bM b = nfilt c; dv_P : bP b = npix c; dv_S : forall p, bS b p = pS q p; dv_W : forall p, bW b p = pW q p;
  dv_l : bl b = lmbda c; dv_w : forall f p, bw b f p = ParModel.wl1 c f p; dv_ok : forall f p v, ballow b f p v <-> pfeas q f p v;
  dv_D : forall i Z p, (i < ngrp c)%nat -> (p < npix c)%nat ->
    pD q i Z p = sumn (grp c (S i) - grp c i) (fun j => sumn (npix c) (fun r => bD b (grp c i + j)%nat p r * Z (grp c i + j)%nat r))
}.
Lemma index_split P a j : (0 < P)%nat -> (j < a * P)%nat -> (j = (j / P) * P + j mod P /\ j / P < a /\ j mod P < P)%nat.
Proof.
  intros HP Hj. pose proof (Nat.div_mod j P ltac:(lia)). pose proof (Nat.mod_upper_bound j P ltac:(lia)).
  split; [lia|]. split; [apply Nat.div_lt_upper_bound; lia|assumption].
Qed.
Lemma index_div P f p : (p < P)%nat -> ((f * P + p) / P = f)%nat /\ ((f * P + p) mod P = p)%nat.
Proof. intros Hp. split; [rewrite Nat.div_add_l by lia; rewrite Nat.div_small by exact Hp; lia|rewrite Nat.add_comm, Nat.mod_add by lia; apply Nat.mod_small; exact Hp]. Qed.

Section Solver.
Variables (c : params) (q : problem) (b : cbpdn).
Hypothesis H : instance_of c q.
Hypothesis Hb : divides c q b.
Hypothesis HP : (0 < npix c)%nat.
Let Hg : groups (ngrp c) (nfilt c) (grp c) := io_grp c q H.
Let Hr : 0 < rho c := io_r0 c q H.
Let Ha : alpha c <> 0 := io_a0 c q H.
Notation P := (npix c).
Notation nG := (ngrp c).
Notation M := (nfilt c).
Notation N := (nfilt c * npix c)%nat.
Notation m0 := (ngrp c * npix c)%nat.
Notation al := (alpha c).

(** Coefficient maps of a scaled vector. *)
Definition maps (x : vec) : nat -> nat -> R := fun f p => / al * x (f * P + p)%nat.
Definition unmaps (X : nat -> nat -> R) : vec := fun j => al * X (j / P)%nat (j mod P)%nat.
Lemma maps_unmaps X f p : (p < P)%nat -> maps (unmaps X) f p = X f p.
Proof. intros Hp. unfold maps, unmaps. destruct (index_div P f p Hp) as [-> ->]. field. exact Ha. Qed.
Definition Kd (i : nat) (Z : nat -> nat -> R) (p : nat) : R :=
  sumn (grp c (S i) - grp c i) (fun j => sumn P (fun r => bD b (grp c i + j)%nat p r * Z (grp c i + j)%nat r)).
Definition Lf (x : vec) : vec := fun j => if (j <? m0)%nat then Kd (j / P) (maps x) (j mod P) else 0.
Lemma Lf_at x i p : (i < nG)%nat -> (p < P)%nat -> Lf x (i * P + p)%nat = Kd i (maps x) p.
Proof. intros Hi Hp. unfold Lf. destruct (Nat.ltb_spec (i * P + p) m0); [|nia]. destruct (index_div P i p Hp) as [-> ->]. reflexivity. Qed.
Lemma Lf_linear : linear_map Lf.
Proof.
  intros s x t y j. unfold Lf. destruct (j <? m0)%nat; [|ring]. unfold Kd. rewrite <- !sumn_scal, <- sumn_plus. apply sumn_ext. intros k _.
  rewrite <- !sumn_scal, <- sumn_plus. apply sumn_ext. intros r _. unfold maps. ring.
Qed.
Lemma grp_lt i j : (i < nG)%nat -> (j < grp c (S i) - grp c i)%nat -> (grp c i + j < M)%nat.
Proof. intros Hi Hj. apply (ing_lt c Hg i); [exact Hi|]. apply ing_iff. lia. Qed.
Lemma Lf_local : local_map N Lf.
Proof.
  intros x y Hxy j. unfold Lf. destruct (Nat.ltb_spec j m0) as [Hj|Hj]; [|reflexivity]. destruct (index_split P nG j HP Hj) as (_ & Hi & Hp).
  unfold Kd. apply sumn_ext. intros k Hk. apply sumn_ext. intros r Hr'. unfold maps. pose proof (grp_lt _ k Hi Hk). rewrite Hxy by nia. reflexivity.
Qed.
Lemma pD_K i Z p : (i < nG)%nat -> (p < P)%nat -> pD q i Z p = Kd i Z p.
Proof. intros Hi Hp. apply (dv_D c q b Hb); assumption. Qed.
Lemma sum_K Z p : sumn nG (fun i => Kd i Z p) = product b Z p.
Proof. unfold product, Kd. rewrite (dv_M c q b Hb), (dv_P c q b Hb). symmetry. apply (sum_groups nG M (grp c) (fun f => sumn P (fun r => bD b f p r * Z f r)) Hg). Qed.

Definition E1 (x : vec) : Prop := allowed b (maps x).
Definition g1 (x : vec) : R := bl b * sumn M (fun f => sumn P (fun p => bw b f p * Rabs (maps x f p))).
Lemma lam0 : 0 <= bl b. Proof. rewrite (dv_l c q b Hb). apply (io_l0 c q H). Qed.
Lemma w0 f p : 0 <= bw b f p. Proof. rewrite (dv_w c q b Hb). apply (io_w0 c q H). Qed.
Lemma ok_iff f p v : ballow b f p v <-> (nonneg c = true -> 0 <= v) /\ (bnd c p = true -> v = 0).
Proof. rewrite (dv_ok c q b Hb). apply (io_feas c q H). Qed.
Lemma ok_convex f p s z t : ballow b f p s -> ballow b f p z -> 0 <= t <= 1 -> ballow b f p (s + t * (z - s)).
Proof.
  rewrite !ok_iff. intros [A1 A2] [B1 B2] Ht. split.
  - intros E. specialize (A1 E). specialize (B1 E). nra.
  - intros E. rewrite (A2 E), (B2 E). ring.
Qed.
Lemma maps_seg x y t f p : maps (seg x y t) f p = maps x f p + t * (maps y f p - maps x f p).
Proof. unfold maps, seg. ring. Qed.
Lemma g1_convex : convex_on E1 g1.
Proof.
  intros x y t Hx Hy Ht. split.
  - intros f p Hf Hp. rewrite maps_seg. apply ok_convex; [apply Hx|apply Hy|exact Ht]; assumption.
  - unfold g1. rewrite <- Rmult_minus_distr_l, <- Rmult_assoc, (Rmult_comm t), Rmult_assoc, <- Rmult_plus_distr_l. apply Rmult_le_compat_l; [apply lam0|].
    rewrite <- sumn_minus, <- sumn_scal, <- sumn_plus. apply sumn_le. intros f _. rewrite <- sumn_minus, <- sumn_scal, <- sumn_plus. apply sumn_le. intros p _.
    rewrite maps_seg. set (u := maps x f p). set (v := maps y f p). pose proof (w0 f p).
    assert (Q : Rabs (u + t * (v - u)) <= (1 - t) * Rabs u + t * Rabs v).
    { replace (u + t * (v - u)) with ((1 - t) * u + t * v) by ring. eapply Rle_trans; [apply Rabs_triang|]. rewrite !Rabs_mult, (Rabs_right (1 - t)), (Rabs_right t) by lra. lra. }
    apply (Rmult_le_compat_l _ _ _ H0) in Q. lra.
Qed.
Lemma g1_lip : loc_lip N g1.
Proof.
  unfold g1. apply lip_scal. apply (lip_sumn N M (fun f x => sumn P (fun p => bw b f p * Rabs (maps x f p)))). intros f Hf.
  apply (lip_sumn N P (fun p x => bw b f p * Rabs (maps x f p))). intros p Hp. apply lip_scal. apply lip_abs. unfold maps. apply lip_scal. apply lip_coord. nia.
Qed.
Lemma E1_closed : closed N E1.
Proof.
  intros y l Hy C f p Hf Hp. rewrite (dv_M c q b Hb) in Hf. rewrite (dv_P c q b Hb) in Hp. apply ok_iff.
  assert (C' : Un_cv (fun k => maps (y k) f p) (maps l f p)).
  { unfold maps. apply (CV_mult (fun _ => / al)); [apply cv_const|]. apply C. nia. }
  assert (K : forall k, ballow b f p (maps (y k) f p)) by (intros k; apply Hy; [rewrite (dv_M c q b Hb)|rewrite (dv_P c q b Hb)]; assumption).
  split; intros E.
  - refine (cv_le (fun _ => 0) _ 0 _ _ (cv_const 0) C'). intros k. apply (proj1 (proj1 (ok_iff _ _ _) (K k)) E).
  - apply (UL_sequence (fun k => maps (y k) f p)); [exact C'|]. apply (cv_ext (fun _ => 0)); [|apply cv_const]. intros k. symmetry. apply (proj2 (proj1 (ok_iff _ _ _) (K k)) E).
Qed.

(** The variables of the solver for the vectors y and u. *)
Definition unst (y u : vec) : st :=
  mkSt (fun i p => y (i * P + p)%nat) (maps (block_sep1 m0 y)) (fun i p => u (i * P + p)%nat) (fun f p => block_sep1 m0 u (f * P + p)%nat).
Definition xs' (y u : vec) : vec := unmaps (xmap c (unst y u)).
Definition ys' (ax u : vec) : vec :=
  block_cat m0
    (fun j => 1 / rho c * sw c (j mod P)%nat + (ax j + u j) + inv_off c (j mod P)%nat * sumn nG (fun i => sw c (j mod P)%nat + rho c * (ax (i * P + j mod P)%nat + u (i * P + j mod P)%nat)))
    (unmaps (fun f p => y1val c f p (/ al * block_sep1 m0 ax (f * P + p)%nat + 1 / al * block_sep1 m0 u (f * P + p)%nat))).
Notation A := (tA m0 Lf).
Notation cc := (tc m0 (fun _ => 0)).
Notation m := (m0 + N)%nat.

Lemma xobj_nrm y u x : nrm2 m (fun i => A x i + tb_B y i - cc i + u i) = 2 * xobj q (unst y u) (maps x).
Proof.
  unfold nrm2, dot. rewrite sumn_split, (sumn_flat P nG), (sumn_flat P M) by exact HP. unfold xobj, sumG, sumF.
  rewrite (io_n c q H), (io_P c q H), (io_M c q H), (io_a c q H).
  rewrite Rmult_plus_distr_l, <- !Rmult_assoc. replace (2 * (1 / 2)) with 1 by field. rewrite !Rmult_1_l. f_equal.
  - apply sumn_ext. intros i Hi. apply sumn_ext. intros p Hp. unfold tA, tc, tb_B. rewrite !cat_lt by nia. rewrite (Lf_at x i p Hi Hp), (pD_K i _ p Hi Hp).
    cbn [unst Y0 U0]. ring.
  - apply sumn_ext. intros f Hf. apply sumn_ext. intros p Hp. unfold tA, tc, tb_B. rewrite !cat_ge. cbn [unst Y1 U1]. unfold maps, block_sep1. field. exact Ha.
Qed.
Lemma xobj_ext s Z Z' : (forall f p, (f < M)%nat -> (p < P)%nat -> Z f p = Z' f p) -> xobj q s Z = xobj q s Z'.
Proof.
  intros E. unfold xobj, sumG, sumF. rewrite (io_n c q H), (io_P c q H), (io_M c q H). f_equal; f_equal.
  - apply sumn_ext. intros i Hi. apply sumn_ext. intros p Hp. rewrite !(pD_K i _ p Hi Hp). replace (Kd i Z p) with (Kd i Z' p); [reflexivity|].
    unfold Kd. apply sumn_ext. intros j Hj. apply sumn_ext. intros r Hr'. rewrite E; [reflexivity|apply grp_lt; assumption|exact Hr'].
  - apply sumn_ext. intros f Hf. apply sumn_ext. intros p Hp. rewrite E by assumption. reflexivity.
Qed.
Lemma HXs y u x : nrm2 m (fun i => A (xs' y u) i + tb_B y i - cc i + u i) <= nrm2 m (fun i => A x i + tb_B y i - cc i + u i).
Proof.
  rewrite !xobj_nrm. apply Rmult_le_compat_l; [lra|]. rewrite (xobj_ext _ (maps (xs' y u)) (xmap c (unst y u))); [apply (x_step c q H)|].
  intros f p _ Hp. apply maps_unmaps. exact Hp.
Qed.
Notation fit := (fitg nG P (pW q) (pS q)).
Lemma HY0s ax u : True /\ subgradient m0 (fun _ => True) fit (block_sep0 (ys' ax u)) (fun i => rho c * (ax i + u i - 0 - ys' ax u i)).
Proof.
  split; [exact I|]. pose proof (fitg_sub nG P (pW q) (pS q) (rho c) HP (ys' ax u) (fun i => ax i + u i)) as K.
  intros z Hz. eapply Rle_trans; [|refine (K _ z I)].
  - right. unfold block_sep0. f_equal. unfold dot. apply sumn_ext. intros; ring.
  - clear K z Hz. intros i p Hi Hp. unfold ys'. rewrite !cat_lt by nia. unfold gsum.
    rewrite (sumn_ext nG _ (fun k => 1 / rho c * sw c p + (ax (k * P + p)%nat + u (k * P + p)%nat) + inv_off c p * sumn nG (fun i => sw c p + rho c * (ax (i * P + p)%nat + u (i * P + p)%nat)))).
    2: { intros k Hk. rewrite cat_lt by nia. destruct (index_div P k p Hp) as [_ ->]. reflexivity. }
    destruct (index_div P i p Hp) as [_ ->]. set (v := fun k => ax (k * P + p)%nat + u (k * P + p)%nat).
    change (ax (i * P + p)%nat + u (i * P + p)%nat) with (v i).
    change (fun i0 => sw c p + rho c * (ax (i0 * P + p)%nat + u (i0 * P + p)%nat)) with (fun i0 => sw c p + rho c * v i0).
    change (fun k => 1 / rho c * sw c p + (ax (k * P + p)%nat + u (k * P + p)%nat) + inv_off c p * sumn nG (fun i0 => sw c p + rho c * v i0))
      with (fun k => 1 / rho c * sw c p + v k + inv_off c p * sumn nG (fun i0 => sw c p + rho c * v i0)).
    rewrite !sumn_plus, !sumn_scal, !sumn_const. set (V := sumn nG v). change (sumn nG (fun i0 => v i0)) with V. rewrite (io_S c q H), (io_off c q H).
    set (n := INR nG). assert (0 <= n) by apply pos_INR. assert (0 <= pW q p ^ 2) by apply pow2_ge_0. field. split; [|lra].
    assert (0 <= pW q p ^ 2 * n) by (apply Rmult_le_pos; assumption). lra.
Qed.
Lemma HY1s ax u : E1 (block_sep1 m0 (ys' ax u)) /\
  subgradient N E1 g1 (block_sep1 m0 (ys' ax u)) (fun i => rho c * (block_sep1 m0 ax i + block_sep1 m0 u i - block_sep1 m0 (ys' ax u) i)).
Proof.
  set (v := fun f p => / al * block_sep1 m0 ax (f * P + p)%nat + 1 / al * block_sep1 m0 u (f * P + p)%nat).
  assert (Ey : forall f p, (p < P)%nat -> maps (block_sep1 m0 (ys' ax u)) f p = y1val c f p (v f p)).
  { intros f p Hp. unfold ys'. rewrite cat_sep1. rewrite maps_unmaps by exact Hp. reflexivity. }
  assert (Hal : 0 < al ^ 2 * rho c). { apply Rmult_lt_0_compat; [|exact Hr]. pose proof (pow2_ge_0 al). pose proof (pow_nonzero al 2 Ha). lra. }
  assert (T : forall f p, 0 <= lmbda c / (al ^ 2 * rho c) * ParModel.wl1 c f p) by apply (thr_nonneg c q H).
  assert (OK : forall f p, ballow b f p (y1val c f p (v f p))).
  { intros f p. apply ok_iff. destruct (y1_coef c f p (v f p) 0 (T f p)) as (K1 & K2 & _); [intros; lra|reflexivity|]. split; assumption. }
  split.
  - intros f p _ Hp. rewrite (dv_P c q b Hb) in Hp. rewrite Ey by exact Hp. apply OK.
  - intros z Ez. unfold g1, dot. rewrite (sumn_flat P M) by exact HP. rewrite <- !sumn_scal, <- sumn_plus. apply sumn_le. intros f Hf.
    rewrite <- !sumn_scal, <- sumn_plus. apply sumn_le. intros p Hp. rewrite (Ey f p Hp). set (y := y1val c f p (v f p)) in *.
    assert (Ez' : ballow b f p (maps z f p)) by (apply Ez; [rewrite (dv_M c q b Hb)|rewrite (dv_P c q b Hb)]; assumption).
    pose proof (scalar_sub (ballow b f p) (lmbda c / (al ^ 2 * rho c) * ParModel.wl1 c f p) (v f p) y (T f p) (ok_convex f p) (OK f p)) as K.
    specialize (K ltac:(intros w Hw; apply ok_iff in Hw; destruct Hw as [W1 W2]; destruct (y1_coef c f p (v f p) w (T f p) W1 W2) as (_ & _ & Q); exact Q) _ Ez').
    apply (Rmult_le_compat_l (al ^ 2 * rho c)) in K; [|lra].
    replace (al ^ 2 * rho c * (lmbda c / (al ^ 2 * rho c) * ParModel.wl1 c f p * Rabs (maps z f p))) with (bl b * (bw b f p * Rabs (maps z f p))) in K
      by (rewrite (dv_l c q b Hb), (dv_w c q b Hb); field; split; lra).
    eapply Rle_trans; [|exact K]. right. rewrite (dv_l c q b Hb), (dv_w c q b Hb).
    assert (Ey' : block_sep1 m0 (ys' ax u) (f * P + p)%nat = al * y) by (unfold y; rewrite <- Ey by exact Hp; unfold maps; field; exact Ha).
    rewrite Ey'. unfold v, maps. field. split; [exact Ha|lra].
Qed.

(** The iterations of the solver are the iterations of the generic method. *)
Lemma relax_at X Y j : relax_AX A tb_B cc (rlx c) X Y j = rlx c * A X j + (1 - rlx c) * (Y j + cc j).
Proof. unfold relax_AX, tb_B. destruct (Req_EM_T (rlx c) 1) as [->|]; ring. Qed.
Lemma step_unst sg : let sg' := AdmmModel.iteration A tb_B cc (rlx c) xs' ys' sg in steq c (step c (unst (sY sg) (sU sg))) (unst (sY sg') (sU sg')).
Proof.
  intros sg'. set (s := unst (sY sg) (sU sg)). set (X := xs' (sY sg) (sU sg)). set (AX := relax_AX A tb_B cc (rlx c) X (sY sg)).
  assert (D : forall i p, (i < nG)%nat -> (p < P)%nat -> AX (i * P + p)%nat = dr c s i p).
  { intros i p Hi Hp. unfold AX. rewrite relax_at. unfold tA, tc. rewrite !cat_lt by nia. rewrite (Lf_at X i p Hi Hp). unfold dr.
    rewrite <- (D_xmap c q H s i p Hi Hp), (pD_K i _ p Hi Hp). cbn [s unst Y0]. rewrite Rplus_0_r. f_equal. f_equal. unfold Kd. apply sumn_ext. intros j Hj. apply sumn_ext. intros r Hr'.
    unfold X, xs'. rewrite maps_unmaps by exact Hr'. reflexivity. }
  assert (Xr : forall f p, (f < M)%nat -> (p < P)%nat -> / al * block_sep1 m0 AX (f * P + p)%nat = xr c s f p).
  { intros f p Hf Hp. unfold AX, block_sep1. rewrite relax_at. unfold tA, tc. rewrite !cat_ge. unfold xr. rewrite <- (maps_unmaps (xmap c s) f p Hp). cbn [s unst Y1].
    fold s. unfold X, xs', maps, block_sep1. fold s. field. exact Ha. }
  assert (YE : forall i p, (i < nG)%nat -> (p < P)%nat -> sY sg' (i * P + p)%nat = Y0 (step c s) i p).
  { intros i p Hi Hp. cbn [sg' AdmmModel.iteration sY]. fold X AX. unfold ys'. rewrite cat_lt by nia. destruct (index_div P i p Hp) as [_ ->]. cbn [step update Y0].
    rewrite (D i p Hi Hp). unfold b_of. cbn [s unst U0]. rewrite <- Rplus_assoc. f_equal. f_equal. apply sumn_ext. intros k Hk. rewrite (D k p Hk Hp). reflexivity. }
  assert (Y1E : forall f p, (f < M)%nat -> (p < P)%nat -> maps (block_sep1 m0 (sY sg')) f p = Y1 (step c s) f p).
  { intros f p Hf Hp. cbn [sg' AdmmModel.iteration sY]. fold X AX. unfold ys'. rewrite cat_sep1, maps_unmaps by exact Hp. cbn [step update Y1]. rewrite (Xr f p Hf Hp). reflexivity. }
  split.
  - intros i p Hi Hp. cbn [unst Y0 U0]. rewrite (YE i p Hi Hp). split; [reflexivity|]. cbn [sg' AdmmModel.iteration sU]. fold X AX. unfold ustep, rsdl_r, tb_B.
    change (sY (AdmmModel.iteration A tb_B cc (rlx c) xs' ys' sg)) with (sY sg').
    unfold tc. rewrite cat_lt by nia. change (ys' AX (sU sg) (i * P + p)%nat) with (sY sg' (i * P + p)%nat). rewrite (YE i p Hi Hp), (D i p Hi Hp). cbn [step update U0 Y0 s unst]. ring.
  - intros f p Hf Hp. cbn [unst Y1 U1]. rewrite (Y1E f p Hf Hp). split; [reflexivity|]. cbn [sg' AdmmModel.iteration sU]. fold X AX. unfold ustep, rsdl_r, tb_B, block_sep1.
    unfold tc. rewrite cat_ge. cbn [step update U1]. change (y1val c f p (xr c s f p + 1 / al * U1 s f p)) with (Y1 (step c s) f p). rewrite <- (Y1E f p Hf Hp), <- (Xr f p Hf Hp).
    cbn [sg' AdmmModel.iteration sY]. fold X AX. unfold maps, block_sep1. cbn [s unst U1]. unfold block_sep1. field. exact Ha.
Qed.

Lemma sobj_objective x : sobj nG P Lf (pW q) (pS q) g1 x = objective b (maps x).
Proof.
  unfold sobj, objective, g1. rewrite (dv_M c q b Hb), (dv_P c q b Hb). f_equal. f_equal. unfold nrm2, dot. apply sumn_ext. intros p Hp.
  assert (E : Lsum nG P Lf x p = product b (maps x) p) by (rewrite <- sum_K; apply sumn_ext; intros i Hi; apply Lf_at; assumption).
  rewrite E, (dv_S c q b Hb), (dv_W c q b Hb). ring.
Qed.
Lemma objective_ext X Z : (forall f p, (f < M)%nat -> (p < P)%nat -> X f p = Z f p) -> objective b X = objective b Z.
Proof.
  intros E. unfold objective, product. rewrite (dv_M c q b Hb), (dv_P c q b Hb). f_equal; f_equal.
  - apply sumn_ext. intros p _. f_equal. f_equal. f_equal. apply sumn_ext. intros f Hf. apply sumn_ext. intros r Hr'. rewrite E by assumption. reflexivity.
  - apply sumn_ext. intros f Hf. apply sumn_ext. intros p Hp. rewrite E by assumption. reflexivity.
Qed.
Lemma allowed_ext X Z : (forall f p, (f < M)%nat -> (p < P)%nat -> X f p = Z f p) -> allowed b X -> allowed b Z.
Proof. intros E HX f p Hf Hp. rewrite <- E; [apply HX; assumption| |]; [rewrite <- (dv_M c q b Hb)|rewrite <- (dv_P c q b Hb)]; assumption. Qed.
Lemma argmin_solution x : argmin E1 (sobj nG P Lf (pW q) (pS q) g1) x -> solution b (maps x).
Proof.
  intros [Ex Hx]. split; [exact Ex|]. intros Z HZ. rewrite <- sobj_objective.
  assert (Q : forall f p, (f < M)%nat -> (p < P)%nat -> Z f p = maps (unmaps Z) f p) by (intros; symmetry; apply maps_unmaps; assumption).
  rewrite (objective_ext Z (maps (unmaps Z)) Q), <- sobj_objective. apply Hx. exact (allowed_ext Z _ Q HZ).
Qed.
Lemma solution_argmin X : solution b X -> argmin E1 (sobj nG P Lf (pW q) (pS q) g1) (unmaps X).
Proof.
  intros [EX HX]. assert (Q : forall f p, (f < M)%nat -> (p < P)%nat -> X f p = maps (unmaps X) f p) by (intros; symmetry; apply maps_unmaps; assumption).
  split; [exact (allowed_ext X _ Q EX)|]. intros x Ex. rewrite !sobj_objective, <- (objective_ext X _ Q). apply HX. exact Ex.
Qed.

Definition start (s : st) : state :=
  mkState (fun _ => 0) (block_cat m0 (fun j => Y0 s (j / P)%nat (j mod P)%nat) (unmaps (Y1 s)))
    (block_cat m0 (fun j => U0 s (j / P)%nat (j mod P)%nat) (fun j => U1 s (j / P)%nat (j mod P)%nat)) (fun _ => 0).
Lemma start_unst s : steq c s (unst (sY (start s)) (sU (start s))).
Proof.
  split.
  - intros i p Hi Hp. cbn [start sY sU unst Y0 U0]. rewrite !cat_lt by nia. destruct (index_div P i p Hp) as [-> ->]. split; reflexivity.
  - intros f p Hf Hp. cbn [start sY sU unst Y1 U1]. rewrite !cat_sep1, maps_unmaps by exact Hp. destruct (index_div P f p Hp) as [-> ->]. split; reflexivity.
Qed.
Lemma iter_unst s k : let sg := iterate A tb_B cc (rlx c) xs' ys' k (start s) in steq c (iter c k s) (unst (sY sg) (sU sg)).
Proof.
  cbv zeta. induction k as [|k IH]; [apply start_unst|]. rewrite iter_S. apply (steq_trans c _ (step c (unst (sY (iterate A tb_B cc (rlx c) xs' ys' k (start s))) (sU (iterate A tb_B cc (rlx c) xs' ys' k (start s)))))).
  - apply (step_steq c Hg). exact IH.
  - apply step_unst.
Qed.
Lemma solver_limit s : 0 < rlx c < 2 -> (exists X, solution b X) ->
  exists X, solution b X /\ forall f p, (f < M)%nat -> (p < P)%nat -> Un_cv (fun k => Y1 (iter c k s) f p) (X f p) /\ Un_cv (fun k => xmap c (iter c k s) f p) (X f p).
Proof.
  intros Hx [X0 S0]. destruct (split_saddle nG P N Lf (pW q) (pS q) E1 g1 (rho c) HP Lf_linear Lf_local g1_convex Hr (unmaps X0) (solution_argmin X0 S0)) as [u Sd].
  destruct (two_iterates N m0 Lf (fun _ => 0) (fun _ => True) E1 (fitg nG P (pW q) (pS q)) g1 (rlx c) (rho c) xs' ys' Lf_linear Lf_local
    (fitg_convex nG P (pW q) (pS q)) g1_convex Hr HXs HY0s HY1s (closed_true m0) E1_closed (fitg_lip nG P (pW q) (pS q) HP) g1_lip (start s) _ _ u Hx Sd) as (x & [[_ Ex] Hmin] & K).
  cbv zeta in K. exists (maps x). split.
  - apply argmin_solution. split; [exact Ex|]. intros z Ez. rewrite <- !sobj_t by exact HP. apply Hmin. split; [exact I|exact Ez].
  - intros f p Hf Hp. destruct (K (f * P + p)%nat ltac:(nia)) as [K1 K2]. split.
    + apply (cv_ext (fun k => maps (block_sep1 m0 (sY (iterate A tb_B cc (rlx c) xs' ys' k (start s)))) f p)).
      * intros k. destruct (iter_unst s k) as [_ Q]. destruct (Q f p Hf Hp) as [-> _]. reflexivity.
      * unfold maps. apply (CV_mult (fun _ => / al)); [apply cv_const|exact K2].
    + apply cv_S in K1. apply (cv_ext (fun k => maps (sX (iterate A tb_B cc (rlx c) xs' ys' (S k) (start s))) f p)).
      * intros k. rewrite (xmap_steq c Hg _ _ f p Hf (iter_unst s k)). cbn [iterate]. unfold AdmmModel.iteration. cbn [sX]. unfold xs'. apply maps_unmaps. exact Hp.
      * unfold maps. apply (CV_mult (fun _ => / al)); [apply cv_const|exact K1].
Qed.
End Solver.

(** ** Solutions *)
Lemma solution_exists b nn (z : nat -> bool) : (0 < bP b)%nat -> 0 < bl b -> (forall f p, 0 < bw b f p) ->
  (forall f p v, ballow b f p v <-> (nn = true -> 0 <= v) /\ (z p = true -> v = 0)) -> exists X, solution b X.
Proof.
  intros HP Hl Hw Hok. set (P := bP b) in *. set (N := (bM b * P)%nat). set (mp := fun (x : vec) f p => x (f * P + p)%nat).
  set (L := fun (x : vec) p => bW b p * product b (mp x) p). set (s := fun p => bW b p * bS b p). set (w := fun j => bw b (j / P)%nat (j mod P)%nat).
  destruct (sc_exists N P L s 0 (bl b) w (masked N (fun j => z (j mod P)%nat) nn)) as [x [Ex Hx]].
  - intros u x v y p. unfold L, product, mp. rewrite (sumn_ext (bM b) _ (fun f => u * sumn P (fun r => bD b f p r * x (f * P + r)%nat) + v * sumn P (fun r => bD b f p r * y (f * P + r)%nat))).
    + rewrite sumn_plus, !sumn_scal. fold P. ring.
    + intros f _. rewrite <- !sumn_scal, <- sumn_plus. apply sumn_ext. intros. ring.
  - intros x y E p _. unfold L, product, mp. f_equal. apply sumn_ext. intros f Hf. apply sumn_ext. intros r Hr. fold P in Hr. rewrite E; [reflexivity|]. unfold N. nia.
  - lra.
  - lra.
  - apply boxes_masked.
  - left. split; [exact Hl|]. intros. apply Hw.
  - assert (Eo : forall X, objective b X = sc_f N P L s 0 (fun j => X (j / P)%nat (j mod P)%nat) + l1reg N (bl b) w (fun j => X (j / P)%nat (j mod P)%nat)).
    { intros X. unfold objective, sc_f, lsq, ridge, l1reg, N. fold P. rewrite (sumn_flat P (bM b)) by exact HP. f_equal.
      - unfold nrm2, dot. rewrite Rmult_0_l || rewrite Rmult_0_r || idtac. transitivity (/ 2 * sumn P (fun p => (bW b p * (product b X p - bS b p)) ^ 2) + 0); [ring|]. f_equal; [|unfold Rdiv; ring].
        f_equal. apply sumn_ext. intros p Hp. unfold L, s.
        assert (Q : product b (mp (fun j => X (j / P)%nat (j mod P)%nat)) p = product b X p).
        { unfold product, mp. apply sumn_ext. intros f _. apply sumn_ext. intros r Hr. destruct (index_div P f r Hr) as [-> ->]. reflexivity. }
        rewrite Q. ring.
      - f_equal. apply sumn_ext. intros f _. apply sumn_ext. intros p Hp. unfold w. destruct (index_div P f p Hp) as [-> ->]. rewrite Rabs_mult, (Rabs_right (bw b f p)); [reflexivity|]. pose proof (Hw f p). lra. }
    exists (mp x).
    assert (Em : forall j, (j < N)%nat -> mp x (j / P)%nat (j mod P)%nat = x j) by (intros j Hj; unfold mp; f_equal; symmetry; apply (index_split P (bM b) j HP Hj)).
    split.
    + intros f p Hf Hp. fold P in Hp. apply Hok. destruct Ex as [X1 X2]. unfold mp. split; [intros E; apply (X1 E); unfold N; nia|]. intros E. apply X2; [unfold N; nia|]. destruct (index_div P f p Hp) as [_ ->]. exact E.
    + intros Z HZ. rewrite !Eo. eapply Rle_trans; [right|apply Hx].
      * f_equal; [apply (lip_loc N (sc_f N P L s 0))|apply (lip_loc N (l1reg N (bl b) w))]; try exact Em; [|apply lip_l1reg].
        unfold sc_f. apply lip_plus; [|apply lip_ridge]. apply (lip_lsq N P L s).
        -- intros u x' v y p. unfold L, product, mp. rewrite (sumn_ext (bM b) _ (fun f => u * sumn P (fun r => bD b f p r * x' (f * P + r)%nat) + v * sumn P (fun r => bD b f p r * y (f * P + r)%nat))).
           ++ rewrite sumn_plus, !sumn_scal. fold P. ring.
           ++ intros f _. rewrite <- !sumn_scal, <- sumn_plus. apply sumn_ext. intros. ring.
        -- intros x' y E p _. unfold L, product, mp. f_equal. apply sumn_ext. intros f Hf. apply sumn_ext. intros r Hr. fold P in Hr. rewrite E; [reflexivity|]. unfold N. nia.
      * split.
        -- intros E j Hj. destruct (index_split P (bM b) j HP Hj) as (_ & Hf & Hp). apply (proj1 (proj1 (Hok _ _ _) (HZ _ _ Hf Hp)) E).
        -- intros j Hj E. destruct (index_split P (bM b) j HP Hj) as (_ & Hf & Hp). apply (proj2 (proj1 (Hok _ _ _) (HZ _ _ Hf Hp)) E).
Qed.
(** The products of all solutions agree where the weight is not zero. *)
Lemma solution_product b X Z : 0 <= bl b -> (forall f p, 0 <= bw b f p) ->
  (forall f p u v, ballow b f p u -> ballow b f p v -> ballow b f p (u + / 2 * (v - u))) ->
  solution b X -> solution b Z -> forall p, (p < bP b)%nat -> bW b p <> 0 -> product b X p = product b Z p.
Proof.
  intros Hl Hw Hc [EX HX] [EZ HZ] p Hp Wp. set (Q := fun f r => X f r + / 2 * (Z f r - X f r)).
  assert (EQ : allowed b Q) by (intros f r Hf Hr; apply Hc; [apply EX|apply EZ]; assumption).
  pose proof (HX Z EZ) as A1. pose proof (HZ X EX) as A2. pose proof (HX Q EQ) as A3.
  assert (PQ : forall r, product b Q r = product b X r + / 2 * (product b Z r - product b X r)).
  { intros r. unfold product. rewrite <- sumn_minus, <- sumn_scal, <- sumn_plus. apply sumn_ext. intros f _. rewrite <- sumn_minus, <- sumn_scal, <- sumn_plus. apply sumn_ext. intros. unfold Q. ring. }
  set (e := fun r => (bW b r * (product b X r - product b Z r)) ^ 2).
  assert (K : objective b Q <= / 2 * objective b X + / 2 * objective b Z - / 8 * sumn (bP b) e).
  { unfold objective.
    assert (K1 : sumn (bP b) (fun p => (bW b p * (product b Q p - bS b p)) ^ 2) = / 2 * sumn (bP b) (fun p => (bW b p * (product b X p - bS b p)) ^ 2) + / 2 * sumn (bP b) (fun p => (bW b p * (product b Z p - bS b p)) ^ 2) - / 4 * sumn (bP b) e).
    { rewrite <- !sumn_scal, <- sumn_plus, <- sumn_minus. apply sumn_ext. intros r _. rewrite PQ. unfold e. field. }
    assert (K2 : sumn (bM b) (fun f => sumn (bP b) (fun p => bw b f p * Rabs (Q f p))) <= / 2 * sumn (bM b) (fun f => sumn (bP b) (fun p => bw b f p * Rabs (X f p))) + / 2 * sumn (bM b) (fun f => sumn (bP b) (fun p => bw b f p * Rabs (Z f p)))).
    { rewrite <- !sumn_scal, <- sumn_plus. apply sumn_le. intros f _. rewrite <- !sumn_scal, <- sumn_plus. apply sumn_le. intros r _. unfold Q. pose proof (Hw f r).
      assert (T : Rabs (X f r + / 2 * (Z f r - X f r)) <= / 2 * Rabs (X f r) + / 2 * Rabs (Z f r)).
      { replace (X f r + / 2 * (Z f r - X f r)) with (/ 2 * X f r + / 2 * Z f r) by field. eapply Rle_trans; [apply Rabs_triang|]. rewrite !Rabs_mult, (Rabs_right (/ 2)) by lra. lra. }
      apply (Rmult_le_compat_l _ _ _ H) in T. lra. }
    apply (Rmult_le_compat_l _ _ _ Hl) in K2. rewrite K1. lra. }
  assert (Pe : forall r, (r < bP b)%nat -> 0 <= e r) by (intros; apply pow2_ge_0).
  pose proof (sumn_nonneg (bP b) e Pe) as S1. assert (S0 : sumn (bP b) e = 0) by lra.
  pose proof (sumn_nonneg_0 (bP b) e Pe S0 p Hp) as E0. unfold e in E0. cbv beta in E0. assert (E1' : bW b p * (product b X p - product b Z p) = 0) by nra.
  apply Rmult_integral in E1'. destruct E1'; [contradiction|lra].
Qed.
Lemma uniform_cv n (u : nat -> nat -> R) l : (forall i, (i < n)%nat -> Un_cv (fun k => u k i) (l i)) ->
  forall eps, 0 < eps -> exists K, forall k i, (K <= k)%nat -> (i < n)%nat -> Rabs (u k i - l i) < eps.
Proof.
  intros H eps He. induction n as [|n IH]; [exists 0%nat; intros; lia|].
  destruct IH as [K HK]; [intros i Hi; apply H; lia|]. destruct (H n ltac:(lia) eps He) as [K' HK'].
  exists (Nat.max K K'). intros k i Hk Hi. destruct (Nat.eq_dec i n) as [->|ne]; [apply HK'; lia|apply HK; lia].
Qed.
Lemma uniform2 M P (u : nat -> nat -> nat -> R) l : (0 < P)%nat -> (forall f p, (f < M)%nat -> (p < P)%nat -> Un_cv (fun k => u k f p) (l f p)) ->
  forall eps, 0 < eps -> exists K, forall k f p, (K <= k)%nat -> (f < M)%nat -> (p < P)%nat -> Rabs (u k f p - l f p) < eps.
Proof.
  intros HP H eps He. destruct (uniform_cv (M * P) (fun k j => u k (j / P)%nat (j mod P)%nat) (fun j => l (j / P)%nat (j mod P)%nat)) with (eps := eps) as [K HK]; [|exact He|].
  - intros j Hj. destruct (index_split P M j HP Hj) as (_ & A & B). apply H; assumption.
  - exists K. intros k f p Hk Hf Hp. specialize (HK k (f * P + p)%nat Hk ltac:(nia)). cbv beta in HK. destruct (index_div P f p Hp) as [E1' E2']. rewrite E1', E2' in HK. exact HK.
Qed.
