(** Proofs about the sub-steps of the concrete solvers. *)
Require Import Reals Lra Lia Arith Bool FunctionalExtensionality.
Require Import Verif.RVec Verif.ProxModel Verif.ProxSpec Verif.ProxProofs Verif.L1ProjModel Verif.L1ProjProofs Verif.NucModel Verif.NucSpec Verif.NucProofs.
Require Import Verif.AdmmModel Verif.AdmmSpec Verif.AdmmProofs Verif.AdmmConv Verif.AdmmProps Verif.StepsModel Verif.StepsSpec.
Local Open Scope R_scope.

(** ** From variational inequalities to minimisers of the augmented Lagrangian. *)
Lemma x_from_vi m A B c rho (D : vec -> Prop) f g y u p : 0 <= rho -> D p ->
  (forall x, D x -> 0 <= f x - f p + rho * dot m (fun i => A p i + B y i - c i + u i) (fun i => A x i - A p i)) ->
  argmin D (fun x => auglag m A B c rho f g x y u) p.
Proof.
  intros Hr Hp H. split; [exact Hp|]. intros x Hx. specialize (H x Hx). unfold auglag.
  set (r := fun i => A p i + B y i - c i + u i) in *. set (h := fun i => A x i - A p i) in *.
  rewrite (nrm2_ext m (fun i => A x i + B y i - c i + u i) (vadd r h)) by (intros; unfold vadd, r, h; ring).
  rewrite nrm2_add. pose proof (nrm2_nonneg m h). nra.
Qed.
Lemma y_from_vi m B c rho (E : vec -> Prop) g ax u p : 0 <= rho -> E p ->
  (forall y, E y -> 0 <= g y - g p + rho * dot m (fun i => ax i + B p i - c i + u i) (fun i => B y i - B p i)) ->
  argmin E (fun y => auglag m (fun _ => ax) B c rho (fun _ => 0) g ax y u) p.
Proof.
  intros Hr Hp H. split; [exact Hp|]. intros y Hy. specialize (H y Hy). unfold auglag.
  set (r := fun i => ax i + B p i - c i + u i) in *. set (h := fun i => B y i - B p i) in *.
  rewrite (nrm2_ext m (fun i => ax i + B y i - c i + u i) (vadd r h)) by (intros; unfold vadd, r, h; ring).
  rewrite nrm2_add. pose proof (nrm2_nonneg m h). nra.
Qed.
(** y steps of the form  prox(ax + u)  for B = - identity and c = 0. *)
Lemma y_equal n rho (E : vec -> Prop) g ax u p : 0 <= rho -> E p ->
  subgradient n E g p (fun i => rho * (ax i + u i - p i)) ->
  argmin E (fun y => auglag n (fun _ => ax) eq_B eq_c rho (fun _ => 0) g ax y u) p.
Proof.
  intros Hr Hp H. apply y_from_vi; [exact Hr|exact Hp|]. intros y Hy. specialize (H y Hy).
  assert (Q : rho * dot n (fun i => ax i + eq_B p i - eq_c i + u i) (fun i => eq_B y i - eq_B p i) = - dot n (fun i => rho * (ax i + u i - p i)) (fun i => y i - p i)).
  { unfold dot. rewrite <- sumn_scal, <- sumn_opp. apply sumn_ext. intros. unfold eq_B, eq_c. ring. }
  rewrite Q. lra.
Qed.

(** ** Arrays *)
Lemma div_at n j i : (i < n)%nat -> ((j * n + i) / n)%nat = j.
Proof. intros H. rewrite Nat.add_comm, Nat.div_add by lia. rewrite Nat.div_small by exact H. reflexivity. Qed.
Lemma mod_at n j i : (i < n)%nat -> ((j * n + i) mod n)%nat = i.
Proof. intros H. rewrite Nat.add_comm, Nat.mod_add by lia. apply Nat.mod_small. exact H. Qed.
Lemma mm_at k Nm D X r c : (c < Nm)%nat -> mm k Nm D X (r * Nm + c) = sumn k (fun i => D r i * X (i * Nm + c)%nat).
Proof. intros H. unfold mm. rewrite div_at, mod_at by exact H. reflexivity. Qed.
Lemma mmr_at k Ns X Z r c : (c < Ns)%nat -> mmr k Ns X Z (r * Ns + c) = sumn k (fun i => X (r * k + i)%nat * Z i c).
Proof. intros H. unfold mmr. rewrite div_at, mod_at by exact H. reflexivity. Qed.
Lemma rows_at Nm F V i k : (k < Nm)%nat -> rows Nm F V (i * Nm + k) = F (row Nm i V) k.
Proof. intros H. unfold rows, row. rewrite div_at, mod_at by exact H. reflexivity. Qed.
Lemma cols_at Nm F V i k : (k < Nm)%nat -> cols Nm F V (i * Nm + k) = F (col Nm k V) i.
Proof. intros H. unfold cols, col. rewrite div_at, mod_at by exact H. reflexivity. Qed.
Lemma dot_rows Nc Nm x y : (0 < Nm)%nat -> dot (Nc * Nm) x y = sumn Nc (fun i => dot Nm (row Nm i x) (row Nm i y)).
Proof. intros H. unfold dot. apply sumn_flat. exact H. Qed.
Lemma dot_cols Nc Nm x y : (0 < Nm)%nat -> dot (Nc * Nm) x y = sumn Nm (fun k => dot Nc (col Nm k x) (col Nm k y)).
Proof. intros H. rewrite dot_rows by exact H. unfold dot. rewrite sumn_swap. reflexivity. Qed.

Lemma mm_linear k Nm D : linear_map (mm k Nm D).
Proof. intros a x b y p. unfold mm. rewrite <- !sumn_scal, <- sumn_plus. apply sumn_ext. intros. ring. Qed.
Lemma mmr_linear k Ns Z : linear_map (fun X => mmr k Ns X Z).
Proof. intros a x b y p. unfold mmr. rewrite <- !sumn_scal, <- sumn_plus. apply sumn_ext. intros. ring. Qed.
Lemma mm_local k Nm D : (0 < Nm)%nat -> local_map (k * Nm) (mm k Nm D).
Proof.
  intros H x y E p. unfold mm. apply sumn_ext. intros i Hi. rewrite E; [reflexivity|]. pose proof (Nat.mod_upper_bound p Nm ltac:(lia)). nia.
Qed.
Lemma mm_adjoint Nr Nc Nm D : (0 < Nm)%nat -> adjoint_of (Nc * Nm) (Nr * Nm) (mm Nc Nm D) (mm Nr Nm (tr D)).
Proof.
  intros H x r. rewrite !dot_cols by exact H. apply sumn_ext. intros k Hk. unfold dot, col.
  transitivity (sumn Nr (fun i => sumn Nc (fun j => D i j * x (j * Nm + k)%nat * r (i * Nm + k)%nat))).
  - apply sumn_ext. intros i _. rewrite mm_at by exact Hk. rewrite sumn_scal_r. reflexivity.
  - rewrite sumn_swap. apply sumn_ext. intros j _. rewrite mm_at by exact Hk. rewrite <- sumn_scal. apply sumn_ext. intros. unfold tr. ring.
Qed.
Lemma mmr_local Nc Nm Ns Z : forall x y, (forall i, (i < Nc * Nm)%nat -> x i = y i) -> forall p, (p < Nc * Ns)%nat -> mmr Nm Ns x Z p = mmr Nm Ns y Z p.
Proof.
  intros x y E p Hp. unfold mmr. apply sumn_ext. intros i Hi. rewrite E; [reflexivity|].
  assert ((p / Ns < Nc)%nat). { apply Nat.div_lt_upper_bound; [intros ->; lia|]. lia. } nia.
Qed.
Lemma mmr_adjoint Nc Nm Ns Z : (0 < Nm)%nat -> (0 < Ns)%nat ->
  adjoint_of (Nc * Nm) (Nc * Ns) (fun X => mmr Nm Ns X Z) (fun Y => mmr Ns Nm Y (tr Z)).
Proof.
  intros H1 H2 x r. rewrite !dot_rows by assumption. apply sumn_ext. intros i Hi. unfold dot, row.
  transitivity (sumn Ns (fun k => sumn Nm (fun j => x (i * Nm + j)%nat * Z j k * r (i * Ns + k)%nat))).
  - apply sumn_ext. intros k Hk. rewrite mmr_at by exact Hk. rewrite sumn_scal_r. reflexivity.
  - rewrite sumn_swap. apply sumn_ext. intros j Hj. rewrite mmr_at by exact Hj. rewrite <- sumn_scal. apply sumn_ext. intros. unfold tr. ring.
Qed.

(** ** Convexity *)
Lemma sq_convex n x y t : 0 <= t <= 1 -> nrm2 n (seg x y t) <= nrm2 n x + t * (nrm2 n y - nrm2 n x).
Proof.
  intros Ht. unfold nrm2, dot. rewrite <- sumn_minus, <- sumn_scal, <- sumn_plus. apply sumn_le. intros i _. unfold seg.
  assert (K : 0 <= t * (1 - t) * ((x i - y i) * (x i - y i))) by (apply Rmult_le_pos; [nra|apply Rle_0_sqr]). nra.
Qed.
Lemma nrm_convex n x y t : 0 <= t <= 1 -> nrm n (seg x y t) <= nrm n x + t * (nrm n y - nrm n x).
Proof.
  intros Ht. rewrite (nrm_ext n _ (vadd (vscal (1 - t) x) (vscal t y))) by (intros; unfold seg, vadd, vscal; ring).
  eapply Rle_trans; [apply nrm_triang|]. rewrite !nrm_scal, !Rabs_pos_eq by lra. lra.
Qed.
Lemma abs_convex a b t : 0 <= t <= 1 -> Rabs (a + t * (b - a)) <= Rabs a + t * (Rabs b - Rabs a).
Proof.
  intros Ht. replace (a + t * (b - a)) with ((1 - t) * a + t * b) by ring. eapply Rle_trans; [apply Rabs_triang|].
  rewrite !Rabs_mult, (Rabs_pos_eq t), (Rabs_pos_eq (1 - t)) by lra. lra.
Qed.
Lemma linear_seg L : linear_map L -> forall x y t p, L (seg x y t) p = seg (L x) (L y) t p.
Proof.
  intros H x y t p. replace (seg x y t) with (fun i => (1 - t) * x i + t * y i) by (extensionality i; unfold seg; ring).
  rewrite H. unfold seg. ring.
Qed.
Lemma linear_affine L m : linear_map L -> affine m L.
Proof. intros H x y t i _. apply (linear_seg L H). Qed.
Lemma lsq_convex (D : vec -> Prop) m L s : linear_map L -> (forall x y t, D x -> D y -> 0 <= t <= 1 -> D (seg x y t)) -> convex_on D (lsq m L s).
Proof.
  intros HL HD x y t Dx Dy Ht. split; [apply HD; assumption|]. unfold lsq.
  rewrite (nrm2_ext m _ (seg (fun i => L x i - s i) (fun i => L y i - s i) t)).
  - pose proof (sq_convex m (fun i => L x i - s i) (fun i => L y i - s i) t Ht). lra.
  - intros i _. rewrite linear_seg by exact HL. unfold seg. ring.
Qed.
Lemma ridge_convex (D : vec -> Prop) n mu : 0 <= mu -> (forall x y t, D x -> D y -> 0 <= t <= 1 -> D (seg x y t)) -> convex_on D (ridge n mu).
Proof. intros Hm HD x y t Dx Dy Ht. split; [apply HD; assumption|]. unfold ridge. pose proof (sq_convex n x y t Ht). nra. Qed.
Lemma plus_convex (D : vec -> Prop) f g : convex_on D f -> convex_on D g -> convex_on D (fun x => f x + g x).
Proof. intros Hf Hg x y t Dx Dy Ht. destruct (Hf x y t Dx Dy Ht) as [D1 F]. destruct (Hg x y t Dx Dy Ht) as [_ G]. split; [exact D1|lra]. Qed.
Lemma l1reg_convex (D : vec -> Prop) n lam w : 0 <= lam -> (forall x y t, D x -> D y -> 0 <= t <= 1 -> D (seg x y t)) -> convex_on D (l1reg n lam w).
Proof.
  intros Hl HD x y t Dx Dy Ht. split; [apply HD; assumption|]. unfold l1reg.
  assert (K : sumn n (fun i => Rabs (w i * seg x y t i)) <= sumn n (fun i => Rabs (w i * x i)) + t * (sumn n (fun i => Rabs (w i * y i)) - sumn n (fun i => Rabs (w i * x i)))).
  { rewrite <- sumn_minus, <- sumn_scal, <- sumn_plus. apply sumn_le. intros i _. unfold seg.
    replace (w i * (x i + t * (y i - x i))) with (w i * x i + t * (w i * y i - w i * x i)) by ring. apply abs_convex. exact Ht. }
  nra.
Qed.
Lemma l21reg_convex (D : vec -> Prop) Nc Nm mu : 0 <= mu -> (forall x y t, D x -> D y -> 0 <= t <= 1 -> D (seg x y t)) -> convex_on D (l21reg Nc Nm mu).
Proof.
  intros Hl HD x y t Dx Dy Ht. split; [apply HD; assumption|]. unfold l21reg.
  assert (K : sumn Nc (fun i => nrm Nm (row Nm i (seg x y t))) <= sumn Nc (fun i => nrm Nm (row Nm i x)) + t * (sumn Nc (fun i => nrm Nm (row Nm i y)) - sumn Nc (fun i => nrm Nm (row Nm i x)))).
  { rewrite <- sumn_minus, <- sumn_scal, <- sumn_plus. apply sumn_le. intros i _. apply (nrm_convex Nm (row Nm i x) (row Nm i y) t Ht). }
  nra.
Qed.
Lemma true_convex : forall (x y : vec) (t : R), True -> True -> 0 <= t <= 1 -> True. Proof. auto. Qed.
Lemma nonneg_convex nn n : forall x y t, nonneg_set nn n x -> nonneg_set nn n y -> 0 <= t <= 1 -> nonneg_set nn n (seg x y t).
Proof. intros x y t Hx Hy Ht E i Hi. specialize (Hx E i Hi). specialize (Hy E i Hi). unfold seg. nra. Qed.
Lemma l1ball_convex Nc Nm g : forall x y t, l1ball_cols Nc Nm g x -> l1ball_cols Nc Nm g y -> 0 <= t <= 1 -> l1ball_cols Nc Nm g (seg x y t).
Proof.
  intros x y t Hx Hy Ht k Hk. specialize (Hx k Hk). specialize (Hy k Hk).
  apply Rle_trans with (nrm1 Nc (col Nm k x) + t * (nrm1 Nc (col Nm k y) - nrm1 Nc (col Nm k x))); [|nra].
  unfold nrm1. rewrite <- sumn_minus, <- sumn_scal, <- sumn_plus. apply sumn_le. intros i _. unfold col, seg. apply abs_convex. exact Ht.
Qed.
Lemma l2ball_convex Nr Nm s g : forall x y t, l2ball_cols Nr Nm s g x -> l2ball_cols Nr Nm s g y -> 0 <= t <= 1 -> l2ball_cols Nr Nm s g (seg x y t).
Proof.
  intros x y t Hx Hy Ht k Hk. specialize (Hx k Hk). specialize (Hy k Hk).
  rewrite (nrm_ext Nr _ (seg (fun i => col Nm k x i - col Nm k s i) (fun i => col Nm k y i - col Nm k s i) t)) by (intros; unfold seg, col; ring).
  pose proof (nrm_convex Nr (fun i => col Nm k x i - col Nm k s i) (fun i => col Nm k y i - col Nm k s i) t Ht). nra.
Qed.

(** Every linear map on the first n coordinates is given by its values on the unit vectors, and is bounded. *)
Lemma linear_sum n L : linear_map L -> forall x p, L (fun i => if Nat.ltb i n then x i else 0) p = sumn n (fun i => x i * L (fun j => if Nat.eqb j i then 1 else 0) p).
Proof.
  intros HL. induction n as [|n IH]; intros x p.
  - simpl. transitivity (L (fun i => 0 * 0 + 0 * 0) p); [f_equal; extensionality i; ring|rewrite (HL 0 (fun _ => 0) 0 (fun _ => 0)); ring].
  - simpl. rewrite <- IH. transitivity (L (fun i => 1 * (if Nat.ltb i n then x i else 0) + x n * (if Nat.eqb i n then 1 else 0)) p).
    + f_equal. extensionality i. destruct (Nat.ltb_spec i (S n)), (Nat.ltb_spec i n), (Nat.eqb_spec i n); subst; try lia; ring.
    + rewrite (HL 1 (fun i => if Nat.ltb i n then x i else 0) (x n) (fun i => if Nat.eqb i n then 1 else 0)). ring.
Qed.
Lemma linear_bounded n m L : linear_map L -> (forall x y, (forall i, (i < n)%nat -> x i = y i) -> forall p, (p < m)%nat -> L x p = L y p) ->
  exists K, 0 <= K /\ forall x, nrm2 m (L x) <= K * nrm2 n x.
Proof.
  intros HL Hl. set (e := fun (p i : nat) => L (fun j => if Nat.eqb j i then 1 else 0) p).
  exists (sumn m (fun p => nrm2 n (e p))). split; [apply sumn_nonneg; intros; apply nrm2_nonneg|]. intros x.
  rewrite <- sumn_scal_r. unfold nrm2 at 1. unfold dot. apply sumn_le. intros p Hp.
  rewrite (Hl x (fun i => if Nat.ltb i n then x i else 0)) by (try exact Hp; intros i Hi; apply Nat.ltb_lt in Hi; rewrite Hi; reflexivity).
  rewrite linear_sum by exact HL. change (sumn n (fun i => x i * L (fun j => if Nat.eqb j i then 1 else 0) p)) with (dot n x (e p)).
  pose proof (cauchy_schwarz_sq n x (e p)). lra.
Qed.

(** ** Least squares plus ridge: the x step *)
Section sc.
Variables (n m : nat) (L LT : vec -> vec) (s : vec) (mu : R).
Hypothesis HL : linear_map L.
Hypothesis Hadj : adjoint_of n m L LT.
Definition sc_f (x : vec) : R := lsq m L s x + ridge n mu x.
Definition sc_grad (x : vec) : vec := fun i => LT (L x) i - LT s i + mu * x i.

Lemma sc_expand p x : sc_f x = sc_f p + dot n (sc_grad p) (fun i => x i - p i) + lsq m L (fun _ => 0) (fun i => x i - p i) + ridge n mu (fun i => x i - p i).
Proof.
  set (h := fun i => x i - p i).
  assert (E : forall i, L x i = L p i + L h i).
  { intros i. replace x with (fun i => 1 * p i + 1 * h i) at 1 by (extensionality j; unfold h; ring). rewrite HL. ring. }
  unfold sc_f, lsq, ridge.
  rewrite (nrm2_ext m (fun i => L x i - s i) (vadd (fun i => L p i - s i) (L h))) by (intros; unfold vadd; rewrite E; ring).
  rewrite (nrm2_ext n x (vadd p h)) by (intros; unfold vadd, h; ring).
  rewrite (nrm2_ext m (fun i => L h i - 0) (L h)) by (intros; ring).
  rewrite !nrm2_add.
  assert (D1 : dot m (fun i => L p i - s i) (L h) = dot n (fun i => LT (L p) i - LT s i) h).
  { change (fun i => L p i - s i) with (vsub (L p) s). rewrite dot_sub_l, (dot_comm m (L p)), (dot_comm m s), !Hadj.
    change (fun i => LT (L p) i - LT s i) with (vsub (LT (L p)) (LT s)). rewrite dot_sub_l, (dot_comm n (LT (L p))), (dot_comm n (LT s)). reflexivity. }
  assert (D2 : dot n (sc_grad p) h = dot n (fun i => LT (L p) i - LT s i) h + mu * dot n p h).
  { unfold dot. rewrite <- sumn_scal, <- sumn_plus. apply sumn_ext. intros. unfold sc_grad. ring. }
  rewrite D1, D2. lra.
Qed.
Lemma lsq_nonneg x : 0 <= lsq m L (fun _ => 0) x.
Proof. unfold lsq. pose proof (nrm2_nonneg m (fun i => L x i - 0)). lra. Qed.
Lemma sc_below p x : 0 <= mu -> sc_f p + dot n (sc_grad p) (fun i => x i - p i) <= sc_f x.
Proof. intros Hm. rewrite (sc_expand p x). pose proof (lsq_nonneg (fun i => x i - p i)). pose proof (nrm2_nonneg n (fun i => x i - p i)). unfold ridge. nra. Qed.
Lemma sc_convex : 0 <= mu -> convex_on (fun _ => True) sc_f.
Proof. intros. apply plus_convex; [apply lsq_convex; auto|apply ridge_convex; auto]. Qed.
Lemma sc_x rho g y u p : 0 <= mu -> 0 < rho -> (forall i, (i < n)%nat -> LT (L p) i + (mu + rho) * p i = LT s i + rho * (y i - u i)) ->
  argmin (fun _ => True) (fun x => auglag n eq_A eq_B eq_c rho sc_f g x y u) p.
Proof.
  intros Hm Hr Hp. apply x_from_vi; [lra|exact I|]. intros x _. pose proof (sc_below p x Hm) as K.
  assert (Q : dot n (sc_grad p) (fun i => x i - p i) = - (rho * dot n (fun i => eq_A p i + eq_B y i - eq_c i + u i) (fun i => eq_A x i - eq_A p i))).
  { unfold dot. rewrite <- sumn_scal, <- sumn_opp. apply sumn_ext. intros i Hi. unfold eq_A, eq_B, eq_c, sc_grad. specialize (Hp i Hi).
    replace (LT (L p) i - LT s i + mu * p i) with (- (rho * (p i - y i + u i))) by lra. ring. }
  rewrite Q in K. lra.
Qed.
Hypothesis Hloc : forall x y, (forall i, (i < n)%nat -> x i = y i) -> forall p, (p < m)%nat -> L x p = L y p.
Lemma sc_ext x y : (forall i, (i < n)%nat -> x i = y i) -> sc_f x = sc_f y.
Proof.
  intros E. unfold sc_f, lsq, ridge. f_equal; f_equal.
  - apply nrm2_ext. intros i Hi. rewrite (Hloc x y E i Hi). reflexivity.
  - apply nrm2_ext. exact E.
Qed.
(** Every minimiser of the sum gives a saddle point of the split problem. *)
Lemma sc_saddle (E : vec -> Prop) g rho p : 0 <= mu -> 0 < rho -> convex_on E g -> argmin E (fun x => sc_f x + g x) p ->
  saddle n eq_A eq_B eq_c rho (fun _ => True) E sc_f g p p (fun i => - sc_grad p i / rho).
Proof.
  intros Hm Hr Cg [Ep Hp]. split; [split; [exact I|split; [exact Ep|]]|].
  - intros i _. unfold gap, eq_A, eq_B, eq_c. ring.
  - intros x y _ Ey.
    assert (V : forall y, E y -> 0 <= g y - g p + dot n (sc_grad p) (fun i => y i - p i)).
    { clear x y Ey. intros y Ey. set (h := fun i => y i - p i).
      apply (limit_0 _ (lsq m L (fun _ => 0) h + ridge n mu h)). intros t Ht.
      destruct (Cg p y t Ep Ey ltac:(lra)) as [Et Gt]. specialize (Hp _ Et). cbv beta in Hp.
      rewrite (sc_expand p (seg p y t)) in Hp.
      assert (E1 : forall i, seg p y t i - p i = t * h i) by (intros; unfold seg, h; ring).
      rewrite (dot_ext n (sc_grad p) (fun i => seg p y t i - p i) (sc_grad p) (vscal t h)) in Hp by (try reflexivity; intros; apply E1).
      rewrite dot_scal_r in Hp.
      assert (E2 : lsq m L (fun _ => 0) (fun i => seg p y t i - p i) = t * t * lsq m L (fun _ => 0) h).
      { replace (fun i => seg p y t i - p i) with (fun i => t * h i + 0 * h i) by (extensionality i; rewrite E1; ring). unfold lsq.
        rewrite (nrm2_ext m _ (vscal t (fun i => L h i - 0))) by (intros; rewrite HL; unfold vscal; ring). rewrite nrm2_scal. ring. }
      assert (E3 : ridge n mu (fun i => seg p y t i - p i) = t * t * ridge n mu h).
      { unfold ridge. rewrite (nrm2_ext n _ (vscal t h)) by (intros; apply E1). rewrite nrm2_scal. ring. }
      rewrite E2, E3 in Hp.
      assert (0 <= t * (g y - g p + dot n (sc_grad p) h + t * (lsq m L (fun _ => 0) h + ridge n mu h))) by nra.
      apply (Rmult_le_reg_l t); [lra|]. rewrite Rmult_0_r. assumption. }
    specialize (V y Ey). pose proof (sc_below p x Hm) as K.
    assert (Q : rho * dot n (fun i => - sc_grad p i / rho) (gap eq_A eq_B eq_c x y) =
                dot n (sc_grad p) (fun i => y i - p i) - dot n (sc_grad p) (fun i => x i - p i)).
    { unfold dot. rewrite <- sumn_scal, <- sumn_minus. apply sumn_ext. intros. unfold gap, eq_A, eq_B, eq_c. field. lra. }
    rewrite Q. lra.
Qed.
(** The general conclusion for the solvers of this kind. *)
Section run.
Variables (E : vec -> Prop) (g : vec -> R) (rlx rho : R) (xstep ystep : vec -> vec -> vec).
Hypothesis Hmu : 0 <= mu.
Hypothesis Hrho : 0 < rho.
Hypothesis Cg : convex_on E g.
Hypothesis HXm : forall y u, argmin (fun _ => True) (fun x => auglag n eq_A eq_B eq_c rho sc_f g x y u) (xstep y u).
Hypothesis HY : forall ax u, E (ystep ax u) /\ subgradient n E g (ystep ax u) (fun i => rho * (ax i + u i - ystep ax u i)).
Lemma run_Y ax u : argmin E (fun y => auglag n (fun _ => ax) eq_B eq_c rho (fun _ => 0) g ax y u) (ystep ax u).
Proof. destruct (HY ax u) as [H1 H2]. apply y_equal; [lra|exact H1|exact H2]. Qed.
Lemma eqA_affine : affine n eq_A. Proof. intros x y t i _. reflexivity. Qed.
Lemma eqB_affine : affine n eq_B. Proof. intros x y t i _. unfold eq_B, seg. ring. Qed.
Lemma sc_stationary_min st : rlx <> 0 ->
  let st' := iteration eq_A eq_B eq_c rlx xstep ystep st in
  (forall i, (i < n)%nat -> sY st' i = sY st i) -> (forall i, (i < n)%nat -> sU st' i = sU st i) ->
  (forall i, (i < n)%nat -> sX st' i = sY st' i) /\ argmin E (fun x => sc_f x + g x) (sY st').
Proof.
  intros Hr st' H1 H2.
  destruct (C36_stationary_optimal n eq_A eq_B eq_c rlx rho (fun _ => True) E sc_f g xstep ystep eqA_affine eqB_affine (sc_convex Hmu) Cg Hrho HXm run_Y st Hr) as [[(_ & Ey & G) H] _].
  - intros i Hi. unfold eq_B. f_equal. apply H1. exact Hi.
  - exact H2.
  - assert (XY : forall i, (i < n)%nat -> sX st' i = sY st' i).
    { intros i Hi. assert (G' : sX st' i + - sY st' i - 0 = 0) by exact (G i Hi). lra. }
    split; [exact XY|]. split; [exact Ey|]. intros x Ex. cbv beta. rewrite <- (sc_ext _ _ XY). apply H.
    split; [exact I|]. split; [exact Ex|]. intros i _. unfold gap, eq_A, eq_B, eq_c. ring.
Qed.
Lemma sc_convergence_min st p : 0 < rlx < 2 -> argmin E (fun x => sc_f x + g x) p ->
  let s k := iterate eq_A eq_B eq_c rlx xstep ystep k st in
  Un_cv (fun k => nrm n (fun i => sX (s k) i - sY (s k) i)) 0 /\
  Un_cv (fun k => nrm n (fun i => rho * (sY (s (S k)) i - sY (s k) i))) 0 /\
  Un_cv (fun k => sc_f (sX (s k)) + g (sY (s k))) (sc_f p + g p).
Proof.
  intros Hr Hp s0.
  destruct (C38_convergence n eq_A eq_B eq_c rlx rho (fun _ => True) E sc_f g xstep ystep eqA_affine eqB_affine (sc_convex Hmu) Cg Hrho HXm run_Y st p p _ Hr
    (sc_saddle E g rho p Hmu Hrho Cg Hp)) as (P1 & P2 & P3).
  split; [|split; [|exact P3]].
  - assert (Q : Un_cv (fun k => nrm n (rsdl_r eq_B eq_c (sX (s0 k)) (sY (s0 k)))) 0) by exact P1.
    revert Q. apply cv_ext. intros k. apply nrm_ext. intros i _. unfold rsdl_r, eq_B, eq_c. ring.
  - assert (Q : Un_cv (fun k => nrm n (rsdl_s (fun v => v) eq_B rho (sY (s0 k)) (sY (s0 (S k))))) 0).
    { apply P2.
      - exists (fun i j => if Nat.eqb j i then 1 else 0). intros v i Hi. rewrite <- (sumn_delta n i v Hi). apply sumn_ext. intros j _. destruct (Nat.eqb j i); ring.
      - intros. unfold eq_B. ring. }
    revert Q. apply cv_ext. intros k. rewrite <- nrm_opp. apply nrm_ext. intros i _. unfold rsdl_s, eq_B. ring.
Qed.
(** The objective at Y, which is what the solvers return, tends to the minimum. *)
Lemma sc_objective_Y st p : 0 < rlx < 2 -> argmin E (fun x => sc_f x + g x) p ->
  let s k := iterate eq_A eq_B eq_c rlx xstep ystep k st in
  Un_cv (fun k => sc_f (sY (s k)) + g (sY (s k))) (sc_f p + g p).
Proof.
  intros Hr Hp s0. destruct (sc_convergence_min st p Hr Hp) as (P1 & _ & P3). fold s0 in P1, P3.
  pose proof (sc_saddle E g rho p Hmu Hrho Cg Hp) as Sd. set (us := fun i => - sc_grad p i / rho) in *.
  set (dz0 := dz n eq_A eq_B eq_c rlx xstep ystep st p us 1).
  assert (Bd : forall k, nrm2 n (fun i => sY (s0 (S k)) i - p i) <= dz0).
  { intros k. apply Rle_trans with (dz n eq_A eq_B eq_c rlx xstep ystep st p us (S k)).
    - pose proof (bound_dz n eq_A eq_B eq_c rlx rho (fun _ => True) E sc_f g xstep ystep eqB_affine Cg Hrho run_Y st p p us Sd k) as Q.
      unfold it in Q. fold (s0 (S k)) in Q.
      rewrite (nrm2_ext n (fun i => eq_B (sY (s0 (S k))) i - eq_B p i) (vscal (-1) (fun i => sY (s0 (S k)) i - p i))) in Q by (intros; unfold eq_B, vscal; ring).
      rewrite nrm2_scal in Q. pose proof (nrm2_nonneg n (fun i => sU (s0 (S k)) i - us i)). lra.
    - induction k as [|k IH]; [apply Rle_refl|].
      pose proof (dz_step n eq_A eq_B eq_c rlx rho (fun _ => True) E sc_f g xstep ystep eqA_affine eqB_affine (sc_convex Hmu) Cg Hrho HXm run_Y st p p us Sd k ltac:(lra)) as Q.
      pose proof (nrm2_nonneg n (mid eq_A eq_B eq_c rlx xstep ystep st (S k))). assert (0 <= rlx * (2 - rlx)) by nra. nra. }
  destruct (linear_bounded n m L HL Hloc) as (K & HK & Kb).
  set (G := nrm n (sc_grad p)). set (B0 := sqrt dz0). set (dk := fun k => nrm n (fun i => sX (s0 k) i - sY (s0 k) i)) in *.
  assert (D0 : 0 <= dz0) by (eapply Rle_trans; [apply nrm2_nonneg|apply (Bd O)]).
  assert (Diff : forall k, Rabs (sc_f (sX (s0 (S k))) - sc_f (sY (s0 (S k)))) <= (G + (K + mu) * B0) * dk (S k) + (K + mu) / 2 * (dk (S k) * dk (S k))).
  { intros k. set (y := sY (s0 (S k))). set (x := sX (s0 (S k))). set (a := fun i => y i - p i). set (d := fun i => x i - y i).
    assert (Na : nrm n a <= B0) by (unfold nrm, B0; apply sqrt_le_1; [apply nrm2_nonneg|exact D0|apply Bd]).
    assert (Ex : sc_f x - sc_f y = dot n (sc_grad p) d + dot m (L a) (L d) + / 2 * nrm2 m (L d) + mu * dot n a d + mu / 2 * nrm2 n d).
    { rewrite (sc_expand p x), (sc_expand p y). unfold lsq, ridge. change (fun i => y i - p i) with a.
      rewrite (dot_ext n (sc_grad p) (fun i => x i - p i) (sc_grad p) (vadd a d)) by (try reflexivity; intros; unfold vadd, a, d; ring).
      rewrite (nrm2_ext n (fun i => x i - p i) (vadd a d)) by (intros; unfold vadd, a, d; ring).
      rewrite (nrm2_ext m (fun i => L (fun j => x j - p j) i - 0) (vadd (L a) (L d))).
      2:{ intros i _. unfold vadd. replace (fun j => x j - p j) with (fun j => 1 * a j + 1 * d j) by (extensionality j; unfold a, d; ring). rewrite HL. ring. }
      rewrite (nrm2_ext m (fun i => L a i - 0) (L a)) by (intros; ring). rewrite !nrm2_add, dot_add_r. lra. }
    rewrite Ex. change (dk (S k)) with (nrm n d).
    assert (T1 : Rabs (dot n (sc_grad p) d) <= G * nrm n d) by apply cauchy_schwarz.
    assert (Lb : forall h, nrm m (L h) <= sqrt K * nrm n h).
    { intros h. unfold nrm. rewrite <- sqrt_mult_alt by exact HK. apply sqrt_le_1; [apply nrm2_nonneg|apply Rmult_le_pos; [exact HK|apply nrm2_nonneg]|apply Kb]. }
    assert (T2 : Rabs (dot m (L a) (L d)) <= K * (B0 * nrm n d)).
    { eapply Rle_trans; [apply cauchy_schwarz|]. apply Rle_trans with ((sqrt K * nrm n a) * (sqrt K * nrm n d)).
      - apply Rmult_le_compat; try apply nrm_nonneg; apply Lb.
      - replace ((sqrt K * nrm n a) * (sqrt K * nrm n d)) with (sqrt K * sqrt K * (nrm n a * nrm n d)) by ring. rewrite sqrt_sqrt by exact HK.
        apply Rmult_le_compat_l; [exact HK|]. apply Rmult_le_compat_r; [apply nrm_nonneg|exact Na]. }
    assert (T3 : Rabs (dot n a d) <= B0 * nrm n d).
    { eapply Rle_trans; [apply cauchy_schwarz|]. apply Rmult_le_compat_r; [apply nrm_nonneg|exact Na]. }
    assert (T4 : 0 <= nrm2 m (L d) <= K * (nrm n d * nrm n d)) by (rewrite nrm_sqr; split; [apply nrm2_nonneg|apply Kb]).
    assert (T5 : nrm2 n d = nrm n d * nrm n d) by (rewrite nrm_sqr; reflexivity).
    rewrite T5. pose proof (nrm_nonneg n d) as Nd. apply Rabs_le.
    assert (Ab : forall v w, Rabs v <= w -> - w <= v <= w) by (intros v w Hv; pose proof (Rle_abs v); pose proof (Rle_abs (- v)) as Q; rewrite Rabs_Ropp in Q; lra).
    apply Ab in T1. apply Ab in T2. apply Ab in T3. set (nd := nrm n d) in *.
    assert (M1 : mu * - (B0 * nd) <= mu * dot n a d <= mu * (B0 * nd)) by (split; apply Rmult_le_compat_l; lra).
    assert (M2 : 0 <= mu * (nd * nd)) by (apply Rmult_le_pos; [exact Hmu|apply Rle_0_sqr]). assert (M3 : 0 <= K * (nd * nd)) by (apply Rmult_le_pos; [exact HK|apply Rle_0_sqr]). lra. }
  assert (Z : Un_cv (fun k => sc_f (sX (s0 k)) - sc_f (sY (s0 k))) 0).
  { apply cv_shift_S. intros e He.
    assert (Cb : Un_cv (fun k => (G + (K + mu) * B0) * dk (S k) + (K + mu) / 2 * (dk (S k) * dk (S k))) 0).
    { apply cv_plus_0; apply cv_scal_0; [apply cv_S; exact P1|]. replace 0 with (0 * 0) by ring. apply CV_mult; apply cv_S; exact P1. }
    destruct (Cb e He) as [N HN]. exists N. intros k Hk. specialize (HN k Hk). unfold R_dist in *. rewrite Rminus_0_r in *.
    eapply Rle_lt_trans; [apply Diff|]. eapply Rle_lt_trans; [apply Rle_abs|exact HN]. }
  replace (sc_f p + g p) with (sc_f p + g p - 0) by ring.
  apply (cv_ext (fun k => sc_f (sX (s0 k)) + g (sY (s0 k)) - (sc_f (sX (s0 k)) - sc_f (sY (s0 k))))); [intros; ring|]. apply CV_minus; assumption.
Qed.
End run.
(** The same with the normal equations for the x step. *)
Section run_ne.
Variables (E : vec -> Prop) (g : vec -> R) (rlx rho : R) (xstep ystep : vec -> vec -> vec).
Hypothesis Hmu : 0 <= mu.
Hypothesis Hrho : 0 < rho.
Hypothesis Cg : convex_on E g.
Hypothesis HX : forall y u i, (i < n)%nat -> LT (L (xstep y u)) i + (mu + rho) * xstep y u i = LT s i + rho * (y i - u i).
Hypothesis HY : forall ax u, E (ystep ax u) /\ subgradient n E g (ystep ax u) (fun i => rho * (ax i + u i - ystep ax u i)).
Lemma run_X y u : argmin (fun _ => True) (fun x => auglag n eq_A eq_B eq_c rho sc_f g x y u) (xstep y u).
Proof. apply sc_x; [exact Hmu|exact Hrho|apply HX]. Qed.
Definition sc_stationary := sc_stationary_min E g rlx rho xstep ystep Hmu Hrho Cg run_X HY.
Definition sc_convergence := sc_convergence_min E g rlx rho xstep ystep Hmu Hrho Cg run_X HY.
End run_ne.
End sc.

(** ** y steps *)
Lemma clip_soft nn v a y : 0 <= a -> (nn = true -> 0 <= y) ->
  let q := sgn v * Rmax (Rabs v - a) 0 in let p := if (nn && ltb q 0)%bool then 0 else q in
  a * Rabs p + (v - p) * (y - p) <= a * Rabs y.
Proof.
  intros Ha Hy q p. unfold p. destruct nn; cbn [andb].
  - specialize (Hy eq_refl). destruct (ltb q 0) eqn:E.
    + apply ltb_true in E. assert (v <= 0).
      { destruct (Rle_or_lt v 0) as [C|C]; [exact C|]. exfalso. unfold q in E. rewrite sgn_pos in E by exact C. pose proof (Rmax_r (Rabs v - a) 0). lra. }
      rewrite Rabs_R0. rewrite (Rabs_pos_eq y) by exact Hy. nra.
    + apply (prox_l1_sub1 v a y Ha).
  - apply (prox_l1_sub1 v a y Ha).
Qed.
Lemma clip_nonneg nn n Y : nonneg_set nn n (clip nn Y).
Proof. intros -> i _. unfold clip. cbn [andb]. destruct (ltb (Y i) 0) eqn:E; [lra|]. apply ltb_false in E. lra. Qed.
Lemma bpdn_y n nn lam rho wl1 ax u : 0 <= lam -> 0 < rho -> (forall i, (i < n)%nat -> 0 <= wl1 i) ->
  nonneg_set nn n (bpdn_ystep nn lam rho wl1 ax u) /\
  subgradient n (nonneg_set nn n) (l1reg n lam wl1) (bpdn_ystep nn lam rho wl1 ax u) (fun i => rho * (ax i + u i - bpdn_ystep nn lam rho wl1 ax u i)).
Proof.
  intros Hl Hr Hw. split; [apply clip_nonneg|]. intros y Hy. unfold l1reg, dot. rewrite <- !sumn_scal, <- sumn_plus. apply sumn_le. intros i Hi.
  unfold bpdn_ystep, clip, prox_l1. specialize (Hw i Hi).
  assert (Ha : 0 <= lam / rho * wl1 i). { apply Rmult_le_pos; [|exact Hw]. apply Rmult_le_pos; [exact Hl|]. apply Rlt_le, Rinv_0_lt_compat, Hr. }
  pose proof (clip_soft nn (ax i + u i) (lam / rho * wl1 i) (y i) Ha (fun e => Hy e i Hi)) as K. cbv zeta in K.
  set (p := if (nn && ltb (sgn (ax i + u i) * Rmax (Rabs (ax i + u i) - lam / rho * wl1 i) 0) 0)%bool then 0 else sgn (ax i + u i) * Rmax (Rabs (ax i + u i) - lam / rho * wl1 i) 0) in *.
  rewrite !Rabs_mult, (Rabs_pos_eq (wl1 i)) by exact Hw.
  assert (E : forall z, lam * (wl1 i * Rabs z) = rho * (lam / rho * wl1 i * Rabs z)) by (intros; field; lra). rewrite !E.
  apply (Rmult_le_compat_l rho) in K; [|lra]. lra.
Qed.
(** Weighted l1 plus l2 on one group. *)
Lemma sl1l2_group n v (a : vec) b : (forall i, (i < n)%nat -> 0 <= a i) -> 0 <= b ->
  let p := prox_l2 n (prox_l1 v a) b in
  forall y, sumn n (fun i => a i * Rabs (p i)) + b * nrm n p + dot n (fun i => v i - p i) (fun i => y i - p i) <= sumn n (fun i => a i * Rabs (y i)) + b * nrm n y.
Proof.
  intros Ha Hb p y. set (w := prox_l1 v a) in *.
  pose proof (prox_l2_subgrad n w b Hb y) as H2. fold p in H2. rewrite !norm_l2_nrm in H2.
  assert (Hc : exists c, 0 <= c /\ forall i, p i = c * w i).
  { exists (zdivide (Rmax 0 (norm_l2 n w - b)) (norm_l2 n w)). split; [|reflexivity].
    unfold zdivide. destruct (eqb (norm_l2 n w) 0) eqn:E; [lra|]. apply eqb_false in E.
    apply Rmult_le_pos; [apply Rmax_l|]. apply Rlt_le, Rinv_0_lt_compat. rewrite norm_l2_nrm in *. pose proof (nrm_nonneg n w). lra. }
  destruct Hc as (c & Hc & Hp).
  assert (H1 : sumn n (fun i => a i * Rabs (p i)) + dot n (vsub v w) (vsub y p) <= sumn n (fun i => a i * Rabs (y i))).
  { unfold dot. rewrite <- sumn_plus. apply sumn_le. intros i Hi. unfold vsub. rewrite Hp. apply (sl1l2_l1_part (v i) (a i) c (y i)); [apply Ha; exact Hi|exact Hc]. }
  assert (S : dot n (fun i => v i - p i) (fun i => y i - p i) = dot n (vsub v w) (vsub y p) + dot n (vsub w p) (vsub y p)).
  { rewrite <- dot_add_l. apply dot_ext; intros; unfold vadd, vsub; ring. }
  rewrite S. lra.
Qed.
Lemma joint_y Nc Nm lam mu rho wl1 ax u : (0 < Nm)%nat -> 0 <= lam -> 0 <= mu -> 0 < rho -> (forall i, (i < Nc * Nm)%nat -> 0 <= wl1 i) ->
  let p := joint_ystep Nm false lam mu rho wl1 ax u in
  subgradient (Nc * Nm) (fun _ => True) (fun y => l1reg (Nc * Nm) lam wl1 y + l21reg Nc Nm mu y) p (fun i => rho * (ax i + u i - p i)).
Proof.
  intros HN Hl Hm Hr Hw p y _. set (v := fun i => ax i + u i).
  assert (Ir : 0 < / rho) by (apply Rinv_0_lt_compat; exact Hr).
  set (a := fun i => lam / rho * wl1 i).
  assert (Ep : forall i k, (k < Nm)%nat -> p (i * Nm + k)%nat = prox_l2 Nm (prox_l1 (row Nm i v) (row Nm i a)) (mu / rho) k).
  { intros i k Hk. unfold p, joint_ystep, clip. cbn [andb]. apply (rows_at Nm (fun v => prox_l2 Nm v (mu / rho)) (prox_l1 v a) i k Hk). }
  assert (K : forall i, (i < Nc)%nat ->
     sumn Nm (fun k => row Nm i a k * Rabs (row Nm i p k)) + mu / rho * nrm Nm (row Nm i p) + dot Nm (fun k => row Nm i v k - row Nm i p k) (fun k => row Nm i y k - row Nm i p k)
     <= sumn Nm (fun k => row Nm i a k * Rabs (row Nm i y k)) + mu / rho * nrm Nm (row Nm i y)).
  { intros i Hi. pose proof (sl1l2_group Nm (row Nm i v) (row Nm i a) (mu / rho)) as G. cbv zeta in G.
    assert (Ga : forall k, (k < Nm)%nat -> 0 <= row Nm i a k).
    { intros k Hk. unfold row, a. apply Rmult_le_pos; [apply Rmult_le_pos; lra|]. apply Hw. nia. }
    assert (Gb : 0 <= mu / rho) by (apply Rmult_le_pos; lra). specialize (G Ga Gb (row Nm i y)).
    assert (Er : forall k, (k < Nm)%nat -> row Nm i p k = prox_l2 Nm (prox_l1 (row Nm i v) (row Nm i a)) (mu / rho) k) by (intros; apply Ep; assumption).
    rewrite (nrm_ext Nm (row Nm i p) _ Er).
    rewrite (sumn_ext Nm (fun k => row Nm i a k * Rabs (row Nm i p k)) (fun k => row Nm i a k * Rabs (prox_l2 Nm (prox_l1 (row Nm i v) (row Nm i a)) (mu / rho) k))) by (intros k Hk; rewrite (Er k Hk); reflexivity).
    rewrite (dot_ext Nm (fun k => row Nm i v k - row Nm i p k) (fun k => row Nm i y k - row Nm i p k) (fun k => row Nm i v k - prox_l2 Nm (prox_l1 (row Nm i v) (row Nm i a)) (mu / rho) k)
      (fun k => row Nm i y k - prox_l2 Nm (prox_l1 (row Nm i v) (row Nm i a)) (mu / rho) k)) by (intros k Hk; rewrite (Er k Hk); reflexivity).
    exact G. }
  assert (F : forall z, l1reg (Nc * Nm) lam wl1 z + l21reg Nc Nm mu z = rho * sumn Nc (fun i => sumn Nm (fun k => row Nm i a k * Rabs (row Nm i z k)) + mu / rho * nrm Nm (row Nm i z))).
  { intros z. unfold l1reg, l21reg. rewrite sumn_plus, sumn_scal. rewrite sumn_flat by exact HN.
    rewrite Rmult_plus_distr_l. f_equal; [|field; lra]. rewrite <- !sumn_scal. apply sumn_ext. intros i Hi. rewrite <- !sumn_scal. apply sumn_ext. intros k Hk. unfold row, a.
    rewrite Rabs_mult, (Rabs_pos_eq (wl1 (i * Nm + k)%nat)) by (apply Hw; nia). field. lra. }
  rewrite !F.
  assert (Q : dot (Nc * Nm) (fun i => rho * (ax i + u i - p i)) (fun i => y i - p i) =
     rho * sumn Nc (fun i => dot Nm (fun k => row Nm i v k - row Nm i p k) (fun k => row Nm i y k - row Nm i p k))).
  { rewrite dot_rows by exact HN. rewrite <- sumn_scal. apply sumn_ext. intros i _. unfold dot. rewrite <- sumn_scal. apply sumn_ext. intros. unfold row, v. ring. }
  rewrite Q, <- Rmult_plus_distr_l, <- sumn_plus. apply Rmult_le_compat_l; [lra|]. apply sumn_le. exact K.
Qed.
Lemma nearest_vi n (C : vec -> Prop) v p : (forall x y t, C x -> C y -> 0 <= t <= 1 -> C (seg x y t)) -> nearest n C v p ->
  C p /\ forall x, C x -> dot n (fun i => v i - p i) (fun i => x i - p i) <= 0.
Proof.
  intros HC (Cp & H & _). split; [exact Cp|]. intros x Cx.
  assert (A : argmin C (fun x => (fun _ => 0) x + 1 / 2 * nrm2 n (fun i => (fun z : vec => z) x i + - v i)) p).
  { split; [exact Cp|]. intros z Cz. specialize (H z Cz). cbv beta.
    assert (S : nrm2 n (vsub p v) <= nrm2 n (vsub z v)).
    { rewrite <- !nrm_sqr. pose proof (nrm_nonneg n (vsub p v)). nra. }
    unfold vsub in S. assert (E : forall w : vec, nrm2 n (fun i => w i + - v i) = nrm2 n (fun i => w i - v i)) by (intros; apply nrm2_ext; intros; ring).
    rewrite !E. lra. }
  assert (Cv : convex_on C (fun _ => 0)) by (intros a b t Ca Cb Ht; split; [apply HC; assumption|lra]).
  assert (Af : affine n (fun z : vec => z)) by (intros a b t i _; reflexivity).
  pose proof (argmin_vi n C (fun _ => 0) (fun z : vec => z) (fun i => - v i) 1 p Cv Af ltac:(lra) A x Cx) as V. cbv beta in V.
  assert (Q : dot n (fun i => v i - p i) (fun i => x i - p i) = - dot n (fun i => p i + - v i) (fun i => x i - p i)).
  { unfold dot. rewrite <- sumn_opp. apply sumn_ext. intros. ring. }
  rewrite Q. lra.
Qed.
Lemma projl1_y Nc Nm gamma rho ax u : (0 < Nc)%nat -> (0 < Nm)%nat -> 0 <= gamma -> 0 < rho ->
  let p := projl1_ystep Nc Nm false gamma ax u in
  l1ball_cols Nc Nm gamma p /\ subgradient (Nc * Nm) (l1ball_cols Nc Nm gamma) (fun _ => 0) p (fun i => rho * (ax i + u i - p i)).
Proof.
  intros HC HN Hg Hr p. set (v := fun i => ax i + u i).
  assert (Ep : forall k i, (k < Nm)%nat -> col Nm k p i = proj_l1_sortsum false Nc (col Nm k v) gamma i).
  { intros k i Hk. unfold col at 1. unfold p, projl1_ystep, clip. cbn [andb]. apply (cols_at Nm (fun v => proj_l1_sortsum false Nc v gamma) v i k Hk). }
  assert (Cx : forall x y t, nrm1 Nc x <= gamma -> nrm1 Nc y <= gamma -> 0 <= t <= 1 -> nrm1 Nc (seg x y t) <= gamma).
  { intros x y t Hx Hy Ht. apply Rle_trans with (nrm1 Nc x + t * (nrm1 Nc y - nrm1 Nc x)); [|nra].
    unfold nrm1. rewrite <- sumn_minus, <- sumn_scal, <- sumn_plus. apply sumn_le. intros i _. apply abs_convex. exact Ht. }
  assert (V : forall k, (k < Nm)%nat -> nrm1 Nc (col Nm k p) <= gamma /\ forall x, nrm1 Nc x <= gamma -> dot Nc (fun i => col Nm k v i - col Nm k p i) (fun i => x i - col Nm k p i) <= 0).
  { intros k Hk. destruct (sortsum_ok false Nc (col Nm k v) gamma HC Hg) as [Nn _].
    destruct (nearest_vi Nc _ _ _ Cx Nn) as [V1 V2]. split.
    - unfold nrm1. rewrite (sumn_ext Nc _ (fun i => Rabs (proj_l1_sortsum false Nc (col Nm k v) gamma i))) by (intros; rewrite Ep by exact Hk; reflexivity). exact V1.
    - intros x Hx. rewrite (dot_ext Nc _ _ (fun i => col Nm k v i - proj_l1_sortsum false Nc (col Nm k v) gamma i) (fun i => x i - proj_l1_sortsum false Nc (col Nm k v) gamma i)) by (intros; rewrite Ep by exact Hk; reflexivity).
      apply V2. exact Hx. }
  split; [intros k Hk; apply V; exact Hk|]. intros y Hy. rewrite dot_cols by exact HN.
  assert (S : sumn Nm (fun k => dot Nc (col Nm k (fun i => rho * (ax i + u i - p i))) (col Nm k (fun i => y i - p i))) <= sumn Nm (fun _ => 0)).
  { apply sumn_le. intros k Hk. destruct (V k Hk) as [_ V2]. specialize (V2 (col Nm k y) (Hy k Hk)).
    assert (Q : dot Nc (col Nm k (fun i => rho * (ax i + u i - p i))) (col Nm k (fun i => y i - p i)) = rho * dot Nc (fun i => col Nm k v i - col Nm k p i) (fun i => col Nm k y i - col Nm k p i)).
    { unfold dot. rewrite <- sumn_scal. apply sumn_ext. intros. unfold col, v. ring. }
    rewrite Q. nra. }
  rewrite (sumn_0 Nm (fun _ => 0)) in S by reflexivity. lra.
Qed.
