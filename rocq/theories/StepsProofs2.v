(** Proofs about the sub-steps of MinL1InL2Ball, RobustPCA and CnstrMOD. *)
Require Import Reals Lra Lia Arith Bool FunctionalExtensionality.
Require Import Verif.RVec Verif.ProxModel Verif.ProxSpec Verif.ProxProofs Verif.NucModel Verif.NucSpec Verif.NucProofs.
Require Import Verif.AdmmModel Verif.AdmmSpec Verif.AdmmProofs Verif.AdmmConv Verif.AdmmProps Verif.StepsModel Verif.StepsSpec Verif.StepsProofs.
Local Open Scope R_scope.

(** ** MinL1InL2Ball *)
Section minl1.
Variables (Nr Nc Nm : nat) (solve : mat -> R -> vec -> vec) (D : mat) (S : vec).
Hypothesis HN : (0 < Nm)%nat.
Hypothesis Hsolve : forall b p, (p < Nc * Nm)%nat -> mm Nr Nm (tr D) (mm Nc Nm D (solve D 1 b)) p + 1 * solve D 1 b p = b p.
Let b := minl1_b Nc Nm.
Let m := (Nc * Nm + Nr * Nm)%nat.
Definition ml_A : vec -> vec := tb_A (minl1_b Nc Nm) (fun x => x) (minl1_A1 Nc Nm D).
Definition ml_AT : vec -> vec := tb_AT (minl1_b Nc Nm) (fun x => x) (minl1_A1T Nr Nm D).
Lemma dot_cat k l x0 x1 y : dot (k + l) (block_cat k x0 x1) y = dot k x0 (block_sep0 y) + dot l x1 (block_sep1 k y).
Proof.
  unfold dot. rewrite sumn_split. f_equal; apply sumn_ext; intros i Hi; unfold block_cat, block_sep0, block_sep1.
  - destruct (Nat.ltb_spec i k); [reflexivity|lia].
  - destruct (Nat.ltb_spec (k + i) k); [lia|]. replace (k + i - k)%nat with i by lia. reflexivity.
Qed.
Lemma ml_adjoint : adjoint_of (Nc * Nm) m ml_A ml_AT.
Proof.
  intros x r. unfold ml_A, ml_AT, tb_A, tb_AT, m. change (minl1_b Nc Nm) with (Nc * Nm)%nat. rewrite dot_cat.
  unfold minl1_A1. rewrite (mm_adjoint Nr Nc Nm D HN). unfold dot, minl1_A1T. rewrite <- sumn_plus. apply sumn_ext. intros. ring.
Qed.
Lemma ml_linear : linear_map ml_A.
Proof.
  intros a x c y p. unfold ml_A, tb_A, block_cat. destruct (Nat.ltb p (minl1_b Nc Nm)); [reflexivity|]. unfold minl1_A1. apply mm_linear.
Qed.
Lemma ml_AT_linear : linear_map ml_AT.
Proof.
  intros a x c y p. unfold ml_AT, tb_AT, block_sep0, block_sep1, minl1_A1T.
  replace (fun i => a * x (minl1_b Nc Nm + i)%nat + c * y (minl1_b Nc Nm + i)%nat) with (fun i => a * (fun i => x (minl1_b Nc Nm + i)%nat) i + c * (fun i => y (minl1_b Nc Nm + i)%nat) i) by reflexivity.
  rewrite (mm_linear Nr Nm (tr D)). ring.
Qed.
(** The x step satisfies the normal equations of its least squares problem. *)
Lemma ml_normal Y U p : (p < Nc * Nm)%nat ->
  ml_AT (fun j => ml_A (minl1_xstep Nr Nc Nm solve D Y U) j - (Y j - U j + block_cat b (fun _ => 0) (fun _ => 0) j)) p = 0.
Proof.
  intros Hp. set (X := minl1_xstep Nr Nc Nm solve D Y U).
  replace (fun j => ml_A X j - (Y j - U j + block_cat b (fun _ => 0) (fun _ => 0) j)) with (fun j => 1 * ml_A X j + (-1) * (fun j => Y j - U j) j).
  2:{ extensionality j. unfold block_cat. destruct (Nat.ltb j b); ring. }
  rewrite ml_AT_linear.
  assert (E1 : ml_AT (ml_A X) p = X p + mm Nr Nm (tr D) (mm Nc Nm D X) p).
  { unfold ml_AT, tb_AT, block_sep0, ml_A at 1, tb_A, block_cat. change (minl1_b Nc Nm) with (Nc * Nm)%nat.
    destruct (Nat.ltb_spec p (Nc * Nm)); [|lia]. f_equal. unfold minl1_A1T. apply mm_local; [exact HN|]. intros i Hi. unfold block_sep1, ml_A, tb_A, block_cat.
    change (minl1_b Nc Nm) with (Nc * Nm)%nat. destruct (Nat.ltb_spec (Nc * Nm + i) (Nc * Nm)); [lia|].
    replace (Nc * Nm + i - Nc * Nm)%nat with i by lia. reflexivity. }
  pose proof (Hsolve (fun p => block_sep0 (fun p => Y p - U p) p + minl1_A1T Nr Nm D (block_sep1 (minl1_b Nc Nm) (fun p => Y p - U p)) p) p Hp) as H.
  change (solve D 1 (fun p => block_sep0 (fun p => Y p - U p) p + minl1_A1T Nr Nm D (block_sep1 (minl1_b Nc Nm) (fun p => Y p - U p)) p)) with X in H.
  rewrite E1. unfold ml_AT, tb_AT. lra.
Qed.
Lemma ml_x rho g Y U : 0 < rho ->
  argmin (fun _ => True) (fun x => auglag m ml_A tb_B (block_cat b (fun _ => 0) (fun _ => 0)) rho (fun _ => 0) g x Y U) (minl1_xstep Nr Nc Nm solve D Y U).
Proof.
  intros Hr. apply x_from_vi; [lra|exact I|]. intros x _. set (X := minl1_xstep Nr Nc Nm solve D Y U).
  assert (Q : dot m (fun i => ml_A X i + tb_B Y i - block_cat b (fun _ => 0) (fun _ => 0) i + U i) (fun i => ml_A x i - ml_A X i) = 0).
  { rewrite dot_comm. rewrite (dot_ext m _ _ (ml_A (fun i => 1 * x i + (-1) * X i)) (fun j => ml_A X j - (Y j - U j + block_cat b (fun _ => 0) (fun _ => 0) j))).
    - rewrite ml_adjoint. unfold dot. apply sumn_0. intros i Hi. pose proof (ml_normal Y U i Hi) as Hz. fold X in Hz. rewrite Hz. ring.
    - intros i _. rewrite ml_linear. ring.
    - intros i _. unfold tb_B. ring. }
  rewrite Q. lra.
Qed.
(** The regulariser and constraint of the split problem, on the stacked variable. *)
Definition ml_E (nn : bool) (eps : R) (y : vec) : Prop := nonneg_set nn (Nc * Nm) (block_sep0 y) /\ l2ball_cols Nr Nm S eps (block_sep1 (minl1_b Nc Nm) y).
Definition ml_g (wl1 : vec) (y : vec) : R := l1reg (Nc * Nm) 1 wl1 (block_sep0 y).
Lemma ml_convex nn eps wl1 : convex_on (ml_E nn eps) (ml_g wl1).
Proof.
  intros x y t [X1 X2] [Y1 Y2] Ht. split; [split|].
  - apply (nonneg_convex nn (Nc * Nm) (block_sep0 x) (block_sep0 y) t X1 Y1 Ht).
  - apply (l2ball_convex Nr Nm S eps (block_sep1 (minl1_b Nc Nm) x) (block_sep1 (minl1_b Nc Nm) y) t X2 Y2 Ht).
  - apply (l1reg_convex (fun _ => True) (Nc * Nm) 1 wl1 ltac:(lra) true_convex (block_sep0 x) (block_sep0 y) t I I Ht).
Qed.
Lemma ml_y nn rho wl1 eps ax u : 0 < rho -> 0 <= eps -> (forall i, (i < Nc * Nm)%nat -> 0 <= wl1 i) ->
  argmin (ml_E nn eps) (fun y => auglag m (fun _ => ax) tb_B (block_cat b (fun _ => 0) (fun _ => 0)) rho (fun _ => 0) (ml_g wl1) ax y u) (minl1_ystep Nr Nc Nm S nn rho wl1 eps ax u).
Proof.
  intros Hr He Hw. set (Y := minl1_ystep Nr Nc Nm S nn rho wl1 eps ax u). set (v := fun p => ax p + u p).
  assert (E0 : forall i, (i < Nc * Nm)%nat -> block_sep0 Y i = bpdn_ystep nn 1 rho wl1 ax u i).
  { intros i Hi. unfold block_sep0, Y, minl1_ystep, block_cat. change (minl1_b Nc Nm) with (Nc * Nm)%nat. destruct (Nat.ltb_spec i (Nc * Nm)); [|lia].
    unfold bpdn_ystep, clip, prox_l1, block_sep0. replace (wl1 i / rho) with (1 / rho * wl1 i) by (field; lra). reflexivity. }
  assert (E1 : forall k i, (k < Nm)%nat -> col Nm k (block_sep1 (minl1_b Nc Nm) Y) i = col Nm k S i + proj_l2 Nr (fun i => col Nm k (block_sep1 (minl1_b Nc Nm) v) i - col Nm k S i) eps i).
  { intros k i Hk. unfold col at 1. unfold block_sep1 at 1, Y, minl1_ystep, block_cat. set (bb := minl1_b Nc Nm).
    destruct (Nat.ltb_spec (bb + (i * Nm + k)) bb); [lia|]. replace (bb + (i * Nm + k) - bb)%nat with (i * Nm + k)%nat by lia.
    rewrite cols_at by exact Hk. reflexivity. }
  assert (B : forall k, (k < Nm)%nat -> let w := fun i => col Nm k (block_sep1 (minl1_b Nc Nm) v) i - col Nm k S i in
     nrm Nr (proj_l2 Nr w eps) <= eps /\ forall x, nrm Nr x <= eps -> dot Nr (vsub w (proj_l2 Nr w eps)) (vsub x (proj_l2 Nr w eps)) <= 0).
  { intros k Hk w. pose proof (ball_variational Nr w eps He) as [V1 [_ V2]]. split.
    - unfold proj_l2. rewrite norm_l2_nrm. exact V1.
    - intros x Hx. unfold proj_l2. rewrite norm_l2_nrm. apply V2. exact Hx. }
  destruct (bpdn_y (Nc * Nm) nn 1 rho wl1 ax u ltac:(lra) Hr Hw) as [N1 N2].
  apply y_from_vi; [lra| |].
  - split.
    + intros e i Hi. rewrite E0 by exact Hi. apply N1; assumption.
    + intros k Hk. destruct (B k Hk) as [B1 _]. rewrite (nrm_ext Nr _ (proj_l2 Nr (fun i => col Nm k (block_sep1 (minl1_b Nc Nm) v) i - col Nm k S i) eps)); [exact B1|].
      intros i Hi. rewrite E1 by exact Hk. ring.
  - intros y [Y1 Y2].
    assert (Q : rho * dot m (fun i => ax i + tb_B Y i - block_cat b (fun _ => 0) (fun _ => 0) i + u i) (fun i => tb_B y i - tb_B Y i) =
        - dot (Nc * Nm) (fun i => rho * (ax i + u i - block_sep0 Y i)) (fun i => block_sep0 y i - block_sep0 Y i)
        - rho * dot (Nr * Nm) (fun i => block_sep1 (minl1_b Nc Nm) v i - block_sep1 (minl1_b Nc Nm) Y i) (fun i => block_sep1 (minl1_b Nc Nm) y i - block_sep1 (minl1_b Nc Nm) Y i)).
    { unfold m. unfold dot. rewrite sumn_split. rewrite Rmult_plus_distr_l. match goal with |- _ = ?c - ?d => change (c - d) with (c + - d) end. f_equal.
      - rewrite <- sumn_scal, <- sumn_opp. refine (sumn_ext _ _ _ _). intros i Hi. unfold tb_B, block_cat, block_sep0. destruct (Nat.ltb i b); ring.
      - rewrite <- !sumn_scal, <- sumn_opp. apply sumn_ext. intros i Hi. unfold tb_B, block_cat, block_sep1, v. change (minl1_b Nc Nm) with (Nc * Nm)%nat.
        destruct (Nat.ltb (Nc * Nm + i) b); ring. }
    rewrite Q.
    assert (G1 : ml_g wl1 Y + dot (Nc * Nm) (fun i => rho * (ax i + u i - block_sep0 Y i)) (fun i => block_sep0 y i - block_sep0 Y i) <= ml_g wl1 y).
    { specialize (N2 (block_sep0 y) Y1). unfold ml_g.
      assert (F1 : l1reg (Nc * Nm) 1 wl1 (block_sep0 Y) = l1reg (Nc * Nm) 1 wl1 (bpdn_ystep nn 1 rho wl1 ax u)).
      { unfold l1reg. f_equal. apply sumn_ext. intros i Hi. rewrite E0 by exact Hi. reflexivity. }
      rewrite F1. rewrite (dot_ext (Nc * Nm) _ _ (fun i => rho * (ax i + u i - bpdn_ystep nn 1 rho wl1 ax u i)) (fun i => block_sep0 y i - bpdn_ystep nn 1 rho wl1 ax u i)) by (intros i Hi; rewrite E0 by exact Hi; reflexivity).
      exact N2. }
    assert (G2 : dot (Nr * Nm) (fun i => block_sep1 (minl1_b Nc Nm) v i - block_sep1 (minl1_b Nc Nm) Y i) (fun i => block_sep1 (minl1_b Nc Nm) y i - block_sep1 (minl1_b Nc Nm) Y i) <= 0).
    { rewrite dot_cols by exact HN. rewrite <- (sumn_0 Nm (fun _ => 0)) by reflexivity. apply sumn_le. intros k Hk. destruct (B k Hk) as [_ B2].
      specialize (B2 (fun i => col Nm k (block_sep1 (minl1_b Nc Nm) y) i - col Nm k S i) (Y2 k Hk)). eapply Rle_trans; [|exact B2]. apply Req_le. apply dot_ext; intros i Hi.
      - unfold vsub. change (col Nm k (fun i => block_sep1 (minl1_b Nc Nm) v i - block_sep1 (minl1_b Nc Nm) Y i) i) with (col Nm k (block_sep1 (minl1_b Nc Nm) v) i - col Nm k (block_sep1 (minl1_b Nc Nm) Y) i).
        rewrite E1 by exact Hk. ring.
      - unfold vsub. change (col Nm k (fun i => block_sep1 (minl1_b Nc Nm) y i - block_sep1 (minl1_b Nc Nm) Y i) i) with (col Nm k (block_sep1 (minl1_b Nc Nm) y) i - col Nm k (block_sep1 (minl1_b Nc Nm) Y) i).
        rewrite E1 by exact Hk. ring. }
    nra.
Qed.
End minl1.

(** ** RobustPCA *)
Section rpca.
Variable svd : mat -> mat * (nat -> R) * mat.
Variables (M N : nat) (S : vec).
Hypothesis HN : (0 < N)%nat.
Hypothesis Hsvd : forall X, is_svd M N X (svd X).
Definition nuc (x : vec) : R := norm_nuclear svd M N (unvec N x).
Lemma nuc_spec x : is_nuclear M N (unvec N x) (nuc x).
Proof. exact (norm_nuclear_spec svd M N (unvec N x) (Hsvd _)). Qed.
Lemma nuc_convex : convex_on (fun _ => True) nuc.
Proof.
  intros x y t _ _ Ht. split; [exact I|]. destruct (nuc_spec (seg x y t)) as [_ (W & HW & E)]. rewrite <- E.
  destruct (nuc_spec x) as [Hx _]. destruct (nuc_spec y) as [Hy _]. specialize (Hx W HW). specialize (Hy W HW).
  rewrite (fdot_ext M N _ (fun i j => (1 - t) * unvec N x i j + t * unvec N y i j) W W) by (intros; unfold unvec, seg; ring).
  rewrite fdot_lin. nra.
Qed.
Lemma unvec_vecm X i j : (j < N)%nat -> unvec N (vecm N X) i j = X i j.
Proof. intros Hj. unfold unvec, vecm. rewrite div_at, mod_at by exact Hj. reflexivity. Qed.
Lemma dot_fdot x y : dot (M * N) x y = fdot M N (unvec N x) (unvec N y).
Proof. unfold dot, fdot, unvec. apply sumn_flat. exact HN. Qed.
Lemma rpca_x rho g Y U : 0 < rho -> argmin (fun _ => True) (fun x => auglag (M * N) rpca_id rpca_id S rho nuc g x Y U) (rpca_xstep svd M N S rho Y U).
Proof.
  intros Hr. apply x_from_vi; [lra|exact I|]. intros x _. set (V := unvec N (fun p => S p - Y p - U p)).
  assert (Ha : 0 <= 1 / rho) by (apply Rmult_le_pos; [lra|apply Rlt_le, Rinv_0_lt_compat; exact Hr]).
  destruct (prox_nuclear_sub svd M N V (1 / rho) Ha (Hsvd V)) as [H1 H2]. cbv zeta in H1, H2.
  set (P := fst (prox_nuclear svd M N V (1 / rho))) in *. set (ss := snd (prox_nuclear svd M N V (1 / rho))) in *.
  specialize (H2 (unvec N x) (nuc x) (nuc_spec x)).
  change (rpca_xstep svd M N S rho Y U) with (vecm N P).
  assert (EP : nuc (vecm N P) = sumn (Nat.min M N) ss).
  { apply (is_nuclear_fun M N (unvec N (vecm N P))); [apply nuc_spec|]. apply is_nuclear_ext with P; [|exact H1]. intros i j _ Hj. symmetry. apply unvec_vecm. exact Hj. }
  rewrite EP. rewrite dot_fdot. unfold rpca_id.
  rewrite (fdot_ext M N _ (fun i j => - (V i j - P i j)) _ (fun i j => unvec N x i j - P i j)).
  - assert (Q : fdot M N (fun i j => - (V i j - P i j)) (fun i j => unvec N x i j - P i j) = - fdot M N (fun i j => V i j - P i j) (fun i j => unvec N x i j - P i j)).
    { rewrite (fdot_ext M N (fun i j => - (V i j - P i j)) (fun i j => (-1) * (V i j - P i j) + 0 * (V i j - P i j)) _ (fun i j => unvec N x i j - P i j)) by (intros; ring). rewrite fdot_lin. ring. }
    rewrite Q. apply (Rmult_le_compat_l rho) in H2; [|lra].
    replace (rho * (1 / rho * sumn (Nat.min M N) ss + fdot M N (fun i j => V i j - P i j) (fun i j => unvec N x i j - P i j)))
      with (sumn (Nat.min M N) ss + rho * fdot M N (fun i j => V i j - P i j) (fun i j => unvec N x i j - P i j)) in H2 by (field; lra).
    replace (rho * (1 / rho * nuc x)) with (nuc x) in H2 by (field; lra). lra.
  - intros i j Hi Hj. unfold unvec at 1. rewrite <- (unvec_vecm P i j Hj). unfold V, unvec. ring.
  - intros i j Hi Hj. unfold unvec at 1. rewrite <- (unvec_vecm P i j Hj). reflexivity.
Qed.
Lemma rpca_y lam rho ax u : 0 <= lam -> 0 < rho ->
  argmin (fun _ => True) (fun y => auglag (M * N) (fun _ => ax) rpca_id S rho (fun _ => 0) (l1reg (M * N) lam (fun _ => 1)) ax y u) (rpca_ystep S lam rho ax u).
Proof.
  intros Hl Hr. apply y_from_vi; [lra|exact I|]. intros y _. unfold rpca_id, l1reg, dot. rewrite <- !sumn_scal. 
  set (p := rpca_ystep S lam rho ax u).
  assert (K : 0 <= sumn (M * N) (fun i => lam * Rabs (1 * y i) - lam * Rabs (1 * p i) + rho * ((ax i + p i - S i + u i) * (y i - p i)))).
  { apply sumn_nonneg. intros i Hi. unfold p, rpca_ystep, prox_l1.
    assert (Ha : 0 <= lam / rho) by (apply Rmult_le_pos; [exact Hl|apply Rlt_le, Rinv_0_lt_compat; exact Hr]).
    pose proof (prox_l1_sub1 (S i - ax i - u i) (lam / rho) (y i) Ha) as K. cbv zeta in K.
    set (q := sgn (S i - ax i - u i) * Rmax (Rabs (S i - ax i - u i) - lam / rho) 0) in *. rewrite !Rmult_1_l.
    apply (Rmult_le_compat_l rho) in K; [|lra].
    replace (rho * (lam / rho * Rabs q + (S i - ax i - u i - q) * (y i - q))) with (lam * Rabs q + rho * ((S i - ax i - u i - q) * (y i - q))) in K by (field; lra).
    replace (rho * (lam / rho * Rabs (y i))) with (lam * Rabs (y i)) in K by (field; lra). lra. }
  rewrite sumn_plus, sumn_minus in K. exact K.
Qed.
End rpca.

(** ** CnstrMOD: the nearest point with unit columns. *)
Lemma zeromean_sum n v : (0 < n)%nat -> sumn n (zeromean n v) = 0.
Proof.
  intros Hn. unfold zeromean. rewrite sumn_minus, sumn_const. field. apply not_0_INR. lia.
Qed.
Lemma normalise_unit n v : nrm n v <> 0 -> nrm n (normalise n v) = 1 /\ forall x, nrm n x = 1 -> nrm2 n (vsub (normalise n v) v) <= nrm2 n (vsub x v).
Proof.
  intros Hv. assert (E : sqrt (sumn n (fun i => v i ^ 2)) = nrm n v).
  { unfold nrm, nrm2, dot. f_equal. apply sumn_ext. intros. ring. }
  pose proof (nrm_nonneg n v) as P.
  assert (F : forall i, normalise n v i = vscal (/ nrm n v) v i).
  { intros i. unfold normalise. rewrite E. assert (eqb (nrm n v) 0 = false) as -> by (apply eqb_false; exact Hv). unfold vscal, Rdiv. ring. }
  assert (N1 : nrm n (normalise n v) = 1).
  { rewrite (nrm_ext n _ _ (fun i _ => F i)), nrm_scal, Rabs_pos_eq by (apply Rlt_le, Rinv_0_lt_compat; lra). field. exact Hv. }
  split; [exact N1|]. intros x Hx. rewrite !nrm2_sub. rewrite <- !(nrm_sqr n (normalise n v)), <- (nrm_sqr n x), N1, Hx.
  assert (Dn : dot n (normalise n v) v = nrm n v).
  { rewrite (dot_ext n _ v (vscal (/ nrm n v) v) v) by (try reflexivity; intros; apply F). rewrite dot_scal_l. fold (nrm2 n v). rewrite <- nrm_sqr. field. exact Hv. }
  rewrite Dn. pose proof (dot_le n x v) as C. rewrite Hx in C. lra.
Qed.
Lemma zm_dot n v x : (0 < n)%nat -> sumn n x = 0 -> dot n x (zeromean n v) = dot n x v.
Proof.
  intros Hn Hx. unfold dot, zeromean. rewrite (sumn_ext n _ (fun i => x i * v i - x i * (sumn n v / INR n))) by (intros; ring).
  rewrite sumn_minus, sumn_scal_r, Hx. ring.
Qed.
Lemma pcn_col n zm v : (0 < n)%nat -> nrm n (if (zm : bool) then zeromean n v else v) <> 0 ->
  let p := (if zm then fun v => normalise n (zeromean n v) else normalise n) v in
  nrm n p = 1 /\ (zm = true -> sumn n p = 0) /\ forall x, nrm n x = 1 -> (zm = true -> sumn n x = 0) -> nrm2 n (vsub p v) <= nrm2 n (vsub x v).
Proof.
  intros Hn Hv. destruct zm; cbv zeta.
  - destruct (normalise_unit n (zeromean n v) Hv) as [N1 N2]. split; [exact N1|].
    assert (Z : sumn n (normalise n (zeromean n v)) = 0).
    { unfold normalise. set (d := if eqb _ 0 then 1 else _). unfold Rdiv. rewrite sumn_scal_r, zeromean_sum by exact Hn. ring. }
    split; [intros _; exact Z|]. intros x Hx Hz. specialize (N2 x Hx). specialize (Hz eq_refl).
    rewrite !nrm2_sub in N2. rewrite !(zm_dot n v) in N2 by assumption. rewrite !nrm2_sub. lra.
  - destruct (normalise_unit n v Hv) as [N1 N2]. split; [exact N1|]. split; [discriminate|]. intros x Hx _. apply N2. exact Hx.
Qed.
Lemma cmod_y Nc Nm zm rho ax u : (0 < Nc)%nat -> (0 < Nm)%nat -> 0 <= rho ->
  (forall k, (k < Nm)%nat -> nrm Nc (if (zm : bool) then zeromean Nc (col Nm k (fun i => ax i + u i)) else col Nm k (fun i => ax i + u i)) <> 0) ->
  argmin (unit_cols Nc Nm zm) (fun y => auglag (Nc * Nm) (fun _ => ax) eq_B eq_c rho (fun _ => 0) (fun _ => 0) ax y u) (cmod_ystep Nc Nm zm ax u).
Proof.
  intros HC HN Hr Hv. set (v := fun i => ax i + u i). set (p := cmod_ystep Nc Nm zm ax u).
  assert (Ep : forall k i, (k < Nm)%nat -> col Nm k p i = (if zm then fun v => normalise Nc (zeromean Nc v) else normalise Nc) (col Nm k v) i).
  { intros k i Hk. unfold col at 1, p, cmod_ystep, cmod_pcn. apply cols_at. exact Hk. }
  split.
  - intros k Hk. destruct (pcn_col Nc zm (col Nm k v) HC (Hv k Hk)) as (P1 & P2 & _).
    rewrite (nrm_ext Nc (col Nm k p) _ (fun i _ => Ep k i Hk)). rewrite (sumn_ext Nc (col Nm k p) _ (fun i _ => Ep k i Hk)). split; assumption.
  - intros y Hy. unfold auglag. apply Rplus_le_compat_l. apply Rmult_le_compat_l; [lra|].
    assert (Q : forall z, nrm2 (Nc * Nm) (fun i => ax i + eq_B z i - eq_c i + u i) = sumn Nm (fun k => nrm2 Nc (vsub (col Nm k z) (col Nm k v)))).
    { intros z. unfold nrm2. rewrite dot_cols by exact HN. apply sumn_ext. intros k _. unfold dot. apply sumn_ext. intros i _. unfold col, vsub, eq_B, eq_c, v. ring. }
    rewrite !Q. apply sumn_le. intros k Hk. destruct (pcn_col Nc zm (col Nm k v) HC (Hv k Hk)) as (_ & _ & P3).
    destruct (Hy k Hk) as [Y1 Y2]. specialize (P3 (col Nm k y) Y1 Y2). eapply Rle_trans; [|exact P3]. apply Req_le. apply nrm2_ext. intros i _. unfold vsub. rewrite Ep by exact Hk. reflexivity.
Qed.
