(** C86: plug and play priors. *)
Require Import List Arith Reals Bool Lia Lra FunctionalExtensionality.
Require Import Verif.RVec Verif.ProxModel Verif.AdmmModel Verif.AdmmSpec Verif.AdmmProofs Verif.AdmmConv Verif.AdmmProps Verif.Compact Verif.StepsSpec Verif.StepsProofs Verif.PgmModel Verif.PppModel Verif.PppSpec Verif.PppProofs.
Local Open Scope R_scope.
Local Notation vec := (nat -> R).

Lemma wone n a b : wd n (fun _ => 1) a b = dot n a b. Proof. apply sumn_ext. intros; ring. Qed.
Lemma firm_w n T : firm n T <-> wfirm n (fun _ => 1) T.
Proof. split; intros H a b; specialize (H a b); unfold wq in *; rewrite !wone in *; exact H. Qed.

(** ** Two agents: admm.ppp.PPP *)
Section two.
Variables (n : nat) (F G : vec -> vec) (rlx : R).
Hypothesis HF : firm n F.
Hypothesis HG : firm n G.
Notation run k s := (ppp_iterate rlx F G k s).
Lemma relax_all X Y i : relax_AX eq_A eq_B eq_c rlx X Y i = rlx * X i + (1 - rlx) * Y i.
Proof. unfold relax_AX, eq_A, eq_B, eq_c. destruct (Req_EM_T rlx 1) as [->|]; ring. Qed.
(** The argument of the denoiser in iteration k. *)
Definition zz (s : state) (k : nat) : vec := fun i => relax_AX eq_A eq_B eq_c rlx (sX (run (S k) s)) (sY (run k s)) i + sU (run k s) i.
Lemma zz_y s k i : sY (run (S k) s) i = G (zz s k) i. Proof. reflexivity. Qed.
Lemma zz_u s k i : sU (run (S k) s) i = zz s k i - G (zz s k) i.
Proof.
  change (sU (run (S k) s) i) with (sU (run k s) i + (relax_AX eq_A eq_B eq_c rlx (sX (run (S k) s)) (sY (run k s)) i + - G (zz s k) i - 0)). unfold zz at 2. ring.
Qed.
Lemma zz_x s k : sX (run (S (S k)) s) = F (refl G (zz s k)).
Proof. change (sX (run (S (S k)) s)) with (F (fun i => sY (run (S k) s) i - sU (run (S k) s) i)). f_equal. extensionality i. rewrite zz_y, zz_u. unfold refl. ring. Qed.
Lemma zz_step s k i : zz s (S k) i = zz s k i + rlx * (F (refl G (zz s k)) i - G (zz s k) i).
Proof. unfold zz at 1. rewrite relax_all, zz_x, zz_y, zz_u. ring. Qed.

(** X, Y and U converge to an equilibrium of the two agents, if there is one, from every starting state. *)
Theorem C86_limit s : 0 < rlx < 2 -> (exists x u, equilibrium n F G x u) -> exists x u, equilibrium n F G x u /\ forall i, (i < n)%nat ->
  Un_cv (fun k => sX (run k s) i) (x i) /\ Un_cv (fun k => sY (run k s) i) (x i) /\ Un_cv (fun k => sU (run k s) i) (u i).
Proof.
  intros Hr Ex.
  destruct (dr_limit n (fun _ => 1) ltac:(intros; lra) F G rlx (zz s) (proj1 (firm_w n F) HF) (proj1 (firm_w n G) HG) Hr (fun k i _ => zz_step s k i) Ex) as (x & u & E & C).
  exists x, u. split; [exact E|]. intros i Hi. destruct (C i Hi) as (C1 & C2 & C3). split; [|split].
  - apply cv_shift_S, cv_shift_S. revert C3. apply cv_ext. intros k. rewrite zz_x. reflexivity.
  - apply cv_shift_S. revert C2. apply cv_ext. intros k. rewrite zz_y. reflexivity.
  - apply cv_shift_S. pose proof (CV_minus _ _ _ _ C1 C2) as C4. replace (u i) with (x i + u i - x i) by ring. revert C4. apply cv_ext. intros k. rewrite zz_u. reflexivity.
Qed.
End two.
(** The stopping test: if both residuals of an iteration are zero, the variables were an equilibrium; conversely an equilibrium is
    not changed.  The agents need not be non-expansive. *)
Theorem C86_stationary n F G rlx rho s : rho <> 0 -> (forall a b, (forall i, (i < n)%nat -> a i = b i) -> forall i, (i < n)%nat -> G a i = G b i) ->
  let s' := ppp_iterate rlx F G 1 s in
  (forall i, (i < n)%nat -> eq_rsdl_r (sX s') (sY s') i = 0) -> (forall i, (i < n)%nat -> eq_rsdl_s rho (sYprev s') (sY s') i = 0) -> equilibrium n F G (sY s) (sU s).
Proof.
  intros Hrho HG s' Hr Hs.
  assert (E1 : forall i, (i < n)%nat -> sY s' i = sY s i). { intros i Hi. specialize (Hs i Hi). unfold eq_rsdl_s in Hs. change (sYprev s') with (sY s) in Hs. apply Rmult_integral in Hs. destruct Hs; [contradiction|lra]. }
  assert (E2 : forall i, (i < n)%nat -> sX s' i = sY s i). { intros i Hi. specialize (Hr i Hi). unfold eq_rsdl_r in Hr. rewrite <- (E1 i Hi). lra. }
  split; intros i Hi.
  - exact (E2 i Hi).
  - rewrite <- (E1 i Hi). change (sY s' i) with (G (fun j => relax_AX eq_A eq_B eq_c rlx (sX s') (sY s) j + sU s j) i). apply HG; [|exact Hi].
    intros j Hj. rewrite relax_all, (E2 j Hj). ring.
Qed.
Theorem C86_fixed n F G rlx s : (forall a b, (forall i, (i < n)%nat -> a i = b i) -> forall i, (i < n)%nat -> G a i = G b i) -> equilibrium n F G (sY s) (sU s) -> let s' := ppp_iterate rlx F G 1 s in
  forall i, (i < n)%nat -> sX s' i = sY s i /\ sY s' i = sY s i /\ sU s' i = sU s i.
Proof.
  intros HG [A B] s'.
  assert (EX : forall i, (i < n)%nat -> sX s' i = sY s i) by (intros i Hi; exact (A i Hi)).
  assert (EA : forall j, (j < n)%nat -> relax_AX eq_A eq_B eq_c rlx (sX s') (sY s) j = sY s j) by (intros j Hj; rewrite relax_all, (EX j Hj); ring).
  assert (EY : forall i, (i < n)%nat -> sY s' i = sY s i).
  { intros i Hi. rewrite <- (B i Hi). change (sY s' i) with (G (fun j => relax_AX eq_A eq_B eq_c rlx (sX s') (sY s) j + sU s j) i). apply HG; [|exact Hi]. intros j Hj. rewrite (EA j Hj). reflexivity. }
  intros i Hi. split; [exact (EX i Hi)|]. split; [exact (EY i Hi)|].
  change (sU s' i) with (sU s i + (relax_AX eq_A eq_B eq_c rlx (sX s') (sY s) i + eq_B (sY s') i - eq_c i)). rewrite (EA i Hi). unfold eq_B, eq_c. rewrite (EY i Hi). ring.
Qed.

(** ** Proximal operators *)
Section prox.
Variables (n : nat) (D : vec -> Prop) (f : vec -> R) (rho : R) (T : vec -> vec).
Hypothesis HD : convex_on D f.
Hypothesis Hrho : 0 < rho.
Hypothesis HT : proximal n D f rho T.
Lemma prox_sub v y : D y -> f (T v) + rho * dot n (fun i => v i - T v i) (fun i => y i - T v i) <= f y.
Proof.
  intros Hy. destruct (HT v) as [D0 M]. set (p := T v) in *. set (A := dot n (fun i => v i - p i) (fun i => y i - p i)). set (Q := nrm2 n (fun i => y i - p i)).
  assert (N : forall t, 0 < t <= 1 -> rho * A <= f y - f p + rho / 2 * t * Q).
  { intros t Ht. destruct (HD p y t D0 Hy ltac:(lra)) as [Dt Ft]. specialize (M _ Dt).
    assert (E : nrm2 n (fun i => seg p y t i - v i) = nrm2 n (fun i => p i - v i) - 2 * t * A + t * t * Q).
    { unfold nrm2, A, Q, nrm2, dot, seg. rewrite <- !sumn_scal, <- sumn_minus, <- sumn_plus. apply sumn_ext. intros; ring. }
    rewrite E in M. apply (Rmult_le_reg_l t); [lra|]. nra. }
  destruct (Rle_or_lt (rho * A) (f y - f p)) as [L|L]; [lra|]. exfalso.
  set (e := rho * A - (f y - f p)) in *. assert (Q0 : 0 <= Q) by apply nrm2_nonneg. assert (He : 0 < e) by (unfold e; lra).
  set (t := Rmin 1 (e / (rho * (Q + 1)))). assert (Hq : 0 < rho * (Q + 1)) by nra.
  assert (Ht : 0 < t <= 1) by (unfold t; split; [apply Rmin_glb_lt; [lra|apply Rdiv_lt_0_compat; assumption]|apply Rmin_l]).
  assert (Hte : t * (rho * (Q + 1)) <= e). { apply Rle_trans with (e / (rho * (Q + 1)) * (rho * (Q + 1))); [apply Rmult_le_compat_r; [lra|apply Rmin_r]|]. right. field. lra. }
  specialize (N t Ht). assert (rho / 2 * t * Q <= e / 2) by nra. unfold e in *. lra.
Qed.
End prox.
(** The proximal operator of a convex function satisfies the condition on the agents of C86_limit. *)
Theorem C86_prox_firm n D f rho T : convex_on D f -> 0 < rho -> proximal n D f rho T -> firm n T.
Proof.
  intros HD Hr HT a b. pose proof (prox_sub n D f rho T HD Hr HT a (T b) (proj1 (HT b))) as A. pose proof (prox_sub n D f rho T HD Hr HT b (T a) (proj1 (HT a))) as B.
  assert (E : dot n (fun i => a i - T a i) (fun i => T b i - T a i) + dot n (fun i => b i - T b i) (fun i => T a i - T b i) = nrm2 n (fun i => T a i - T b i) - dot n (fun i => T a i - T b i) (fun i => a i - b i)).
  { unfold nrm2, dot. rewrite <- sumn_plus, <- sumn_minus. apply sumn_ext. intros; ring. }
  assert (rho * (dot n (fun i => a i - T a i) (fun i => T b i - T a i) + dot n (fun i => b i - T b i) (fun i => T a i - T b i)) <= 0) by (rewrite Rmult_plus_distr_l; lra).
  rewrite E in H. nra.
Qed.
(** With proximal operators of f / rho and g / rho an equilibrium minimises f + g. *)
Theorem C86_prox_min n D E f g rho F G x u : convex_on D f -> convex_on E g -> 0 < rho -> proximal n D f rho F -> proximal n E g rho G ->
  (forall v w, (forall i, (i < n)%nat -> v i = w i) -> (D v <-> D w) /\ (E v <-> E w) /\ f v = f w /\ g v = g w) ->
  equilibrium n F G x u -> argmin (fun v => D v /\ E v) (fun v => f v + g v) x.
Proof.
  intros Cf Cg Hr HF HG Loc [A B].
  set (vf := fun j => x j - u j) in *. set (vg := fun j => x j + u j) in *.
  destruct (Loc _ _ A) as (Df & _ & Ef & _). destruct (Loc _ _ B) as (_ & Dg & _ & Eg).
  split; [split; [apply Df, (proj1 (HF vf))|apply Dg, (proj1 (HG vg))]|]. intros y [Dy Ey].
  pose proof (prox_sub n D f rho F Cf Hr HF vf y Dy) as P. pose proof (prox_sub n E g rho G Cg Hr HG vg y Ey) as Q. rewrite Ef in P. rewrite Eg in Q.
  assert (Z : dot n (fun i => vf i - F vf i) (fun i => y i - F vf i) + dot n (fun i => vg i - G vg i) (fun i => y i - G vg i) = 0).
  { unfold dot. rewrite <- sumn_plus. apply sumn_0. intros i Hi. rewrite (A i Hi), (B i Hi). unfold vf, vg. ring. }
  assert (rho * dot n (fun i => vf i - F vf i) (fun i => y i - F vf i) + rho * dot n (fun i => vg i - G vg i) (fun i => y i - G vg i) = 0) by (rewrite <- Rmult_plus_distr_l, Z; ring). lra.
Qed.

(** ** The proximal gradient version: pgm.ppp.PPP *)
Section pgm.
Variables (n : nat) (f : vec -> R) (gf : vec -> vec) (Lf rho : R) (F G : vec -> vec).
(** f is convex and its gradient gf is Lipschitz continuous. *)
Hypothesis Hlo : forall x y, f x + dot n (gf x) (fun i => y i - x i) <= f y.
Hypothesis Hup : forall x y, f y <= f x + dot n (gf x) (fun i => y i - x i) + Lf / 2 * nrm2 n (fun i => y i - x i).
Hypothesis Hrho : 0 < rho.
Hypothesis HF : proximal n (fun _ => True) f rho F.
Hypothesis HG : firm n G.
Lemma Gloc a b : (forall i, (i < n)%nat -> a i = b i) -> forall i, (i < n)%nat -> G a i = G b i.
Proof. apply (nonexp_local n (fun _ => 1) ltac:(intros; lra)). apply firm_nonexp; [intros; lra|]. apply firm_w. exact HG. Qed.
Lemma f_local a b : (forall i, (i < n)%nat -> a i = b i) -> f a = f b.
Proof.
  intros E. assert (Z : forall g, dot n g (fun i => b i - a i) = 0) by (intros g; unfold dot; apply sumn_0; intros i Hi; rewrite (E i Hi); ring).
  assert (Z' : forall g, dot n g (fun i => a i - b i) = 0) by (intros g; unfold dot; apply sumn_0; intros i Hi; rewrite (E i Hi); ring).
  pose proof (Hlo a b) as A. pose proof (Hlo b a) as B. rewrite Z in A. rewrite Z' in B. lra.
Qed.
Lemma f_conv : convex_on (fun _ => True) f.
Proof.
  intros x y t _ _ Ht. split; [exact Logic.I|]. pose proof (Hlo (seg x y t) x) as A. pose proof (Hlo (seg x y t) y) as B.
  assert (E1 : dot n (gf (seg x y t)) (fun i => x i - seg x y t i) = - t * dot n (gf (seg x y t)) (fun i => y i - x i)) by (unfold dot; rewrite <- sumn_scal; apply sumn_ext; intros; unfold seg; ring).
  assert (E2 : dot n (gf (seg x y t)) (fun i => y i - seg x y t i) = (1 - t) * dot n (gf (seg x y t)) (fun i => y i - x i)) by (unfold dot; rewrite <- sumn_scal; apply sumn_ext; intros; unfold seg; ring).
  rewrite E1 in A. rewrite E2 in B. nra.
Qed.
Lemma grad_unique x s : (forall y, f x + dot n s (fun i => y i - x i) <= f y) -> forall i, (i < n)%nat -> s i = gf x i.
Proof.
  intros H. set (d := fun i => s i - gf x i). set (Q := nrm2 n d).
  assert (N : forall t, 0 < t -> Q <= Rabs Lf / 2 * t * Q).
  { intros t Ht. pose proof (H (fun i => x i + t * d i)) as A. pose proof (Hup x (fun i => x i + t * d i)) as B.
    assert (E1 : dot n s (fun i => x i + t * d i - x i) - dot n (gf x) (fun i => x i + t * d i - x i) = t * Q) by (unfold Q, nrm2, dot; rewrite <- sumn_minus, <- sumn_scal; apply sumn_ext; intros; unfold d; ring).
    assert (E2 : nrm2 n (fun i => x i + t * d i - x i) = t * t * Q) by (unfold Q, nrm2, dot; rewrite <- sumn_scal; apply sumn_ext; intros; ring).
    cbv beta in A, B. rewrite E2 in B. assert (Q0 : 0 <= Q) by apply nrm2_nonneg. pose proof (Rle_abs Lf) as La. apply (Rmult_le_reg_l t); [exact Ht|].
    assert (Lf * (t * t * Q) <= Rabs Lf * (t * t * Q)) by (apply Rmult_le_compat_r; [apply Rmult_le_pos; nra|exact La]). lra. }
  assert (Q0 : Q <= 0). { specialize (N (/ (Rabs Lf + 1)) ltac:(apply Rinv_0_lt_compat; pose proof (Rabs_pos Lf); lra)). pose proof (Rabs_pos Lf) as La. assert (Qp : 0 <= Q) by apply nrm2_nonneg.
    assert (Rabs Lf / 2 * / (Rabs Lf + 1) <= 1 / 2). { apply (Rmult_le_reg_r (Rabs Lf + 1)); [lra|]. rewrite Rmult_assoc, Rinv_l by lra. lra. } nra. }
  intros i Hi. assert (T : d i * d i <= Q) by (apply (sumn_ge_term n (fun i => d i * d i) i); [intros; apply Rle_0_sqr|exact Hi]). unfold d in *. destruct (Req_dec (s i - gf x i) 0); [lra|]. assert (0 < (s i - gf x i) * (s i - gf x i)) by (apply Rsqr_pos_lt; assumption). lra.
Qed.
(** x is a fixed point of the proximal gradient step with L = rho exactly if it is an equilibrium of the denoiser and the proximal
    operator of f / rho: the two plug and play solvers have the same solutions when L of one is rho of the other. *)
Theorem C86_pgm_same x : (forall i, (i < n)%nat -> G (fun j => x j - 1 / rho * gf x j) i = x i) <-> exists u, equilibrium n F G x u.
Proof.
  split.
  - intros H. exists (fun j => - (1 / rho * gf x j)). split; [|intros i Hi; exact (H i Hi)].
    set (v := fun j => x j - - (1 / rho * gf x j)). destruct (HF v) as [_ M]. specialize (M x Logic.I). pose proof (Hlo x (F v)) as A.
    assert (E : nrm2 n (fun i => F v i - v i) = nrm2 n (fun i => F v i - x i) - 2 / rho * dot n (gf x) (fun i => F v i - x i) + nrm2 n (fun i => x i - v i)).
    { unfold nrm2, dot. rewrite <- sumn_scal, <- sumn_minus, <- sumn_plus. apply sumn_ext. intros; unfold v. field. lra. }
    rewrite E in M. assert (E3 : rho / 2 * (nrm2 n (fun i => F v i - x i) - 2 / rho * dot n (gf x) (fun i => F v i - x i) + nrm2 n (fun i => x i - v i)) = rho / 2 * nrm2 n (fun i => F v i - x i) - dot n (gf x) (fun i => F v i - x i) + rho / 2 * nrm2 n (fun i => x i - v i)) by (field; lra).
    rewrite E3 in M. assert (Q : rho / 2 * nrm2 n (fun i => F v i - x i) <= 0) by lra.
    assert (Q0 : nrm2 n (fun i => F v i - x i) <= 0) by nra.
    intros i Hi. assert (T : (F v i - x i) * (F v i - x i) <= nrm2 n (fun i => F v i - x i)) by (apply (sumn_ge_term n (fun i => (F v i - x i) * (F v i - x i)) i); [intros; apply Rle_0_sqr|exact Hi]).
    change (F v i = x i). destruct (Req_dec (F v i - x i) 0) as [Z|Z]; [lra|]. assert (0 < (F v i - x i) * (F v i - x i)) by (apply Rsqr_pos_lt; exact Z). lra.
  - intros (u & A & B). assert (S : forall i, (i < n)%nat -> - rho * u i = gf x i).
    { apply (grad_unique x (fun i => - rho * u i)). intros y. pose proof (prox_sub n (fun _ => True) f rho F f_conv Hrho HF (fun j => x j - u j) y Logic.I) as P.
      rewrite (f_local _ _ A) in P. eapply Rle_trans; [|exact P]. right. f_equal. unfold dot. rewrite <- sumn_scal. apply sumn_ext. intros i Hi. rewrite (A i Hi). ring. }
    intros i Hi. rewrite <- (B i Hi). apply Gloc; [|exact Hi]. intros j Hj. rewrite <- (S j Hj). field. lra.
Qed.
End pgm.
(** The residual of pgm.ppp.PPP vanishes exactly if the iteration started from a fixed point of the step (option Monotone off, no
    backtracking, which evaluates obfn_f, a method these classes do not have). *)
Theorem C86_pgm_residual n f gf proxg mom s s' : pbt s = NoBacktrack -> ppol s = NoPolicy -> pgm_ppp_run n f gf proxg false mom 1 s = Some s' ->
  (pgm_ppp_rsdl n s' = 0 <-> forall i, (i < n)%nat -> proxg (fun j => pY s j - 1 / pL s * gf (pY s) j) (pL s) i = pY s i).
Proof.
  intros Hb Hp H. unfold pgm_ppp_run, prun, piter, pbody in H. cbn [on_iteration_start pbt] in H. rewrite Hb in H. injection H as <-.
  unfold pgm_ppp_rsdl. assert (E : forall x : vec, sqrt (sumn n (fun i => x i ^ 2)) = 0 <-> forall i, (i < n)%nat -> x i = 0).
  { intros x. split.
    - intros Z i Hi. apply sqrt_eq_0 in Z; [|apply sumn_nonneg; intros; apply pow2_ge_0]. assert (T : x i ^ 2 <= sumn n (fun i => x i ^ 2)) by (apply (sumn_ge_term n (fun i => x i ^ 2) i); [intros; apply pow2_ge_0|exact Hi]).
      destruct (Req_dec (x i) 0); [assumption|]. assert (0 < x i ^ 2) by (rewrite <- Rsqr_pow2; apply Rsqr_pos_lt; assumption). lra.
    - intros Z. rewrite sumn_0; [apply sqrt_0|]. intros i Hi. rewrite (Z i Hi). ring. }
  rewrite (E (fun i => _ i - _ i)). unfold xstep, policy_step, on_iteration_start. cbn [ppol pX pY pYprv setk ystep pL negb orb]. rewrite Hp. cbn [andb pX pY pYprv pL].
  split; intros Q i Hi; specialize (Q i Hi); lra.
Qed.

(** ** Multi-agent consensus: admm.ppp.PPPConsensus *)
Section cons.
Variables (nb n : nat) (alpha : vec) (rlx rho : R) (pf : nat -> vec -> R -> vec) (pg : vec -> R -> vec).
Hypothesis Hn : (0 < n)%nat.
Hypothesis Hnb : (0 < nb)%nat.
Hypothesis Ha : forall j, (j < nb)%nat -> 0 < alpha j.
Notation asum := (sumn nb alpha).
Notation F := (fun j v => pf j v rho).
Notation G := (fun v => pg v (asum * rho)).
Hypothesis HF : forall j, (j < nb)%nat -> firm n (F j).
Hypothesis HG : firm n G.
Notation run k s := (pc_iterate nb rlx rho alpha pf pg k s).
Notation m := (nb * n)%nat.
Notation wgt := (fun i => alpha (i / n)%nat).
(** The stacked agents. *)
Definition row (z : vec) (j : nat) : vec := fun i => z (j * n + i)%nat.
Definition FF (z : vec) : vec := fun i => F (i / n)%nat (row z (i / n)%nat) (i mod n)%nat.
Definition avg (z : vec) : vec := fun i => sumn nb (fun j => alpha j * row z j i) / asum.
Definition GG (z : vec) : vec := fun i => G (avg z) (i mod n)%nat.
Definition stack (x : nat -> vec) : vec := fun i => x (i / n)%nat (i mod n)%nat.
Lemma asum_pos : 0 < asum.
Proof. destruct nb as [|k]; [lia|]. cbn [sumn]. assert (0 <= sumn k alpha) by (apply sumn_nonneg; intros; left; apply Ha; lia). specialize (Ha k ltac:(lia)). lra. Qed.
Lemma wgt_pos i : (i < m)%nat -> 0 < wgt i. Proof. intros Hi. apply Ha. apply Nat.div_lt_upper_bound; lia. Qed.
Lemma row_stack x j i : (i < n)%nat -> row (stack x) j i = x j i. Proof. intros Hi. unfold row, stack. rewrite div_at, mod_at by exact Hi. reflexivity. Qed.
Lemma wd_rows a b : wd m wgt a b = sumn nb (fun j => alpha j * dot n (row a j) (row b j)).
Proof. unfold wd. rewrite sumn_flat by exact Hn. apply sumn_ext. intros j Hj. unfold dot. rewrite <- sumn_scal. apply sumn_ext. intros i Hi. rewrite div_at by exact Hi. reflexivity. Qed.
Lemma FF_firm : wfirm m wgt FF.
Proof.
  intros a b. unfold wq. rewrite !wd_rows. apply sumn_le. intros j Hj. apply Rmult_le_compat_l; [left; apply Ha; exact Hj|].
  rewrite (dot_ext n (row (fun i => FF a i - FF b i) j) (row (fun i => FF a i - FF b i) j) (fun i => F j (row a j) i - F j (row b j) i) (fun i => F j (row a j) i - F j (row b j) i))
    by (intros i Hi; unfold row at 1, FF; rewrite div_at, mod_at by exact Hi; reflexivity).
  rewrite (dot_ext n (row (fun i => FF a i - FF b i) j) (row (fun i => a i - b i) j) (fun i => F j (row a j) i - F j (row b j) i) (fun i => row a j i - row b j i))
    by (intros i Hi; try reflexivity; unfold row at 1, FF; rewrite div_at, mod_at by exact Hi; reflexivity).
  apply (HF j Hj).
Qed.
Lemma GG_firm : wfirm m wgt GG.
Proof.
  intros a b. unfold wq. rewrite !wd_rows. pose proof asum_pos as Hs.
  set (d := fun i => G (avg a) i - G (avg b) i).
  assert (E1 : sumn nb (fun j => alpha j * dot n (row (fun i => GG a i - GG b i) j) (row (fun i => GG a i - GG b i) j)) = asum * nrm2 n d).
  { rewrite <- sumn_scal_r. apply sumn_ext. intros j Hj. f_equal. apply dot_ext; intros i Hi; unfold row, GG; rewrite mod_at by exact Hi; reflexivity. }
  assert (E2 : sumn nb (fun j => alpha j * dot n (row (fun i => GG a i - GG b i) j) (row (fun i => a i - b i) j)) = asum * dot n d (fun i => avg a i - avg b i)).
  { transitivity (sumn nb (fun j => sumn n (fun i => d i * (alpha j * row (fun i => a i - b i) j i)))).
    - apply sumn_ext. intros j Hj. unfold dot. rewrite <- sumn_scal. apply sumn_ext. intros i Hi. unfold row at 1, GG. rewrite mod_at by exact Hi. fold (d i). unfold d. ring.
    - rewrite sumn_swap. unfold dot. rewrite <- sumn_scal. apply sumn_ext. intros i Hi. rewrite sumn_scal. unfold avg.
      replace (asum * (d i * (sumn nb (fun j => alpha j * row a j i) / asum - sumn nb (fun j => alpha j * row b j i) / asum))) with (d i * (sumn nb (fun j => alpha j * row a j i) - sumn nb (fun j => alpha j * row b j i))) by (field; lra).
      f_equal. rewrite <- sumn_minus. apply sumn_ext. intros j Hj. unfold row. ring. }
  rewrite E1, E2. apply Rmult_le_compat_l; [lra|]. apply (HG (avg a) (avg b)).
Qed.
Definition zc (s : cstate) (k : nat) : vec := stack (fun j i => cn_relax_AX rlx (cX (run (S k) s)) (cY (run k s)) j i + cU (run k s) j i).
Lemma cn_all X Y j i : cn_relax_AX rlx X Y j i = rlx * X j i + (1 - rlx) * Y i.
Proof. unfold cn_relax_AX. destruct (Req_EM_T rlx 1) as [->|]; ring. Qed.
Lemma Gl a b : (forall i, (i < n)%nat -> a i = b i) -> forall i, (i < n)%nat -> G a i = G b i.
Proof. apply (nonexp_local n (fun _ => 1) ltac:(intros; lra)). apply firm_nonexp; [intros; lra|]. apply firm_w. exact HG. Qed.
Lemma Fl j a b : (j < nb)%nat -> (forall i, (i < n)%nat -> a i = b i) -> forall i, (i < n)%nat -> F j a i = F j b i.
Proof. intros Hj. apply (nonexp_local n (fun _ => 1) ltac:(intros; lra)). apply firm_nonexp; [intros; lra|]. apply firm_w. exact (HF j Hj). Qed.
Lemma zc_y s k i : (i < n)%nat -> cY (run (S k) s) i = G (avg (zc s k)) i.
Proof.
  intros Hi. change (cY (run (S k) s)) with (G (fun i => sumn nb (fun j => alpha j * (cn_relax_AX rlx (cX (run (S k) s)) (cY (run k s)) j i + cU (run k s) j i)) / asum)).
  apply Gl; [|exact Hi]. intros l Hl. unfold avg. f_equal. apply sumn_ext. intros j Hj. unfold zc. rewrite row_stack by exact Hl. reflexivity.
Qed.
Lemma zc_u s k j i : (j < nb)%nat -> (i < n)%nat -> cU (run (S k) s) j i = row (zc s k) j i - cY (run (S k) s) i.
Proof.
  intros Hj Hi. unfold zc. rewrite row_stack by exact Hi.
  change (cU (run (S k) s) j i) with (cU (run k s) j i + (cn_relax_AX rlx (cX (run (S k) s)) (cY (run k s)) j i - cY (run (S k) s) i)). ring.
Qed.
Lemma zc_x s k j i : (j < nb)%nat -> (i < n)%nat -> cX (run (S (S k)) s) j i = FF (refl GG (zc s k)) (j * n + i).
Proof.
  intros Hj Hi. unfold FF. rewrite div_at, mod_at by exact Hi. change (cX (run (S (S k)) s) j) with (F j (fun i => cY (run (S k) s) i - cU (run (S k) s) j i)).
  apply (Fl j); [exact Hj| |exact Hi]. intros l Hl. rewrite zc_u by assumption. unfold row at 2, refl, GG. rewrite mod_at by exact Hl. rewrite zc_y by exact Hl. unfold row. ring.
Qed.
Lemma zc_step s k i : (i < m)%nat -> zc s (S k) i = zc s k i + rlx * (FF (refl GG (zc s k)) i - GG (zc s k) i).
Proof.
  intros Hi. set (j := (i / n)%nat). set (l := (i mod n)%nat). assert (Hj : (j < nb)%nat) by (apply Nat.div_lt_upper_bound; lia). assert (Hl : (l < n)%nat) by (apply Nat.mod_upper_bound; lia).
  assert (Ei : i = (j * n + l)%nat) by (unfold j, l; rewrite Nat.mul_comm; apply Nat.div_mod; lia).
  change (zc s (S k) i) with (cn_relax_AX rlx (cX (run (S (S k)) s)) (cY (run (S k) s)) j l + cU (run (S k) s) j l). rewrite cn_all, zc_u, zc_x by assumption.
  unfold GG. fold l. rewrite <- (zc_y s k l Hl). rewrite <- Ei. unfold row. rewrite <- Ei. ring.
Qed.
Lemma cons_eq x u : consensus nb n alpha F G x u <-> equilibrium m FF GG (fun i => x (i mod n)%nat) (stack u).
Proof.
  pose proof asum_pos as Hs.
  assert (AV : forall i, (i < n)%nat -> avg (fun j => x (j mod n)%nat + stack u j) i = x i + sumn nb (fun j => alpha j * u j i) / asum).
  { intros i Hi. unfold avg. rewrite (sumn_ext nb _ (fun j => alpha j * x i + alpha j * u j i)).
    - rewrite sumn_plus, sumn_scal_r. field. lra.
    - intros j Hj. unfold row, stack. rewrite mod_at, div_at by exact Hi. ring. }
  assert (RW : forall j i, (i < n)%nat -> row (fun i => x (i mod n)%nat - stack u i) j i = x i - u j i) by (intros j i Hi; unfold row, stack; rewrite mod_at, div_at by exact Hi; reflexivity).
  split; intros [A B]; split.
  - intros i Hi. assert (Hj : (i / n < nb)%nat) by (apply Nat.div_lt_upper_bound; lia). assert (Hl : (i mod n < n)%nat) by (apply Nat.mod_upper_bound; lia).
    unfold FF. rewrite <- (A _ _ Hj Hl). apply (Fl (i / n)); [exact Hj| |exact Hl]. intros l Hl'. apply RW. exact Hl'.
  - intros i Hi. assert (Hl : (i mod n < n)%nat) by (apply Nat.mod_upper_bound; lia). unfold GG. rewrite <- (B _ Hl). apply Gl; [|exact Hl]. intros l Hl'. apply AV. exact Hl'.
  - intros j i Hj Hi. specialize (A (j * n + i)%nat ltac:(nia)). unfold FF in A. rewrite div_at, mod_at in A by exact Hi. rewrite <- A. apply (Fl j); [exact Hj| |exact Hi]. intros l Hl. symmetry. apply RW. exact Hl.
  - intros i Hi. specialize (B i ltac:(nia)). unfold GG in B. rewrite Nat.mod_small in B by exact Hi. rewrite <- B. apply Gl; [|exact Hi]. intros l Hl. symmetry. apply AV. exact Hl.
Qed.
(** All blocks of X and Y converge to the same array, which is a consensus equilibrium with the limits of the dual variables. *)
Theorem C86_consensus_limit s : 0 < rlx < 2 -> (exists x u, consensus nb n alpha F G x u) -> exists x u, consensus nb n alpha F G x u /\ forall i, (i < n)%nat ->
  Un_cv (fun k => cY (run k s) i) (x i) /\ forall j, (j < nb)%nat -> Un_cv (fun k => cX (run k s) j i) (x i) /\ Un_cv (fun k => cU (run k s) j i) (u j i).
Proof.
  intros Hr (x0 & u0 & E0).
  destruct (dr_limit m wgt wgt_pos FF GG rlx (zc s) FF_firm GG_firm Hr (fun k i Hi => zc_step s k i Hi) (ex_intro _ _ (ex_intro _ _ (proj1 (cons_eq x0 u0) E0)))) as (X & U & [EF EG] & C).
  (* the limit X has equal blocks *)
  set (x := fun i => X i). set (u := fun j => row U j).
  assert (Bl : forall j i, (j < nb)%nat -> (i < n)%nat -> X (j * n + i)%nat = X i).
  { intros j i Hj Hi. rewrite <- (EG (j * n + i)%nat ltac:(nia)), <- (EG i ltac:(nia)). unfold GG. rewrite mod_at, Nat.mod_small by exact Hi. reflexivity. }
  assert (FE : forall a b, (forall i, (i < m)%nat -> a i = b i) -> forall i, (i < m)%nat -> FF a i = FF b i) by (intros a b; apply (nonexp_local m wgt wgt_pos); apply firm_nonexp; [exact wgt_pos|exact FF_firm]).
  assert (GE : forall a b, (forall i, (i < m)%nat -> a i = b i) -> forall i, (i < m)%nat -> GG a i = GG b i) by (intros a b; apply (nonexp_local m wgt wgt_pos); apply firm_nonexp; [exact wgt_pos|exact GG_firm]).
  assert (MX : forall i, (i < m)%nat -> x (i mod n)%nat = X i /\ stack u i = U i).
  { intros i Hi. assert (Hj : (i / n < nb)%nat) by (apply Nat.div_lt_upper_bound; lia). assert (Hl : (i mod n < n)%nat) by (apply Nat.mod_upper_bound; lia).
    assert (Ei : (i / n * n + i mod n)%nat = i) by (rewrite Nat.mul_comm; symmetry; apply Nat.div_mod; lia). split.
    - unfold x. rewrite <- (Bl _ _ Hj Hl), Ei. reflexivity.
    - unfold stack, u, row. rewrite Ei. reflexivity. }
  exists x, u. split.
  - apply cons_eq. split; intros i Hi; destruct (MX i Hi) as [M1 M2]; cbv beta; rewrite M1.
    + rewrite <- (EF i Hi). apply FE; [|exact Hi]. intros l Hl. destruct (MX l Hl) as [N1 N2]. rewrite N1, N2. reflexivity.
    + rewrite <- (EG i Hi). apply GE; [|exact Hi]. intros l Hl. destruct (MX l Hl) as [N1 N2]. rewrite N1, N2. reflexivity.
  - intros i Hi. assert (CY : Un_cv (fun k => cY (run k s) i) (x i)).
    { destruct (C i ltac:(nia)) as (_ & C2 & _). apply cv_shift_S. revert C2. apply cv_ext. intros k. rewrite zc_y by exact Hi. unfold GG. rewrite Nat.mod_small by exact Hi. reflexivity. }
    split; [exact CY|]. intros j Hj. destruct (C (j * n + i)%nat ltac:(nia)) as (C1 & _ & C3). rewrite (Bl j i Hj Hi) in C1, C3. split.
    + apply cv_shift_S, cv_shift_S. revert C3. apply cv_ext. intros k. rewrite zc_x by assumption. reflexivity.
    + apply cv_shift_S. pose proof (CV_minus _ _ _ _ C1 (cv_S _ _ CY)) as C4. replace (u j i) with (X i + U (j * n + i)%nat - x i) by (unfold x, u, row; ring). revert C4. apply cv_ext. intros k. rewrite zc_u by assumption. reflexivity.
Qed.
(** If every agent is a proximal operator, a consensus equilibrium minimises the weighted sum. *)
Theorem C86_consensus_min f g x u : 0 < rho -> (forall j, (j < nb)%nat -> convex_on (fun _ => True) (f j) /\ proximal n (fun _ => True) (f j) rho (F j)) ->
  convex_on (fun _ => True) g -> proximal n (fun _ => True) g (asum * rho) G ->
  (forall v w, (forall i, (i < n)%nat -> v i = w i) -> g v = g w /\ forall j, (j < nb)%nat -> f j v = f j w) ->
  consensus nb n alpha F G x u -> argmin (fun _ => True) (fun v => sumn nb (fun j => alpha j * f j v) + g v) x.
Proof.
  intros Hr Hf Cg Pg Loc [A B]. pose proof asum_pos as Hs. split; [exact Logic.I|]. intros y _.
  set (vg := fun l => x l + sumn nb (fun j => alpha j * u j l) / asum) in *.
  pose proof (prox_sub n (fun _ => True) g (asum * rho) G Cg ltac:(nra) Pg vg y Logic.I) as Q. cbv beta in Q. rewrite (proj1 (Loc _ _ B)) in Q.
  assert (S : sumn nb (fun j => alpha j * f j x) + sumn nb (fun j => alpha j * (rho * dot n (fun i => - u j i) (fun i => y i - x i))) <= sumn nb (fun j => alpha j * f j y)).
  { rewrite <- sumn_plus. apply sumn_le. intros j Hj. rewrite <- Rmult_plus_distr_l. apply Rmult_le_compat_l; [left; apply Ha; exact Hj|]. destruct (Hf j Hj) as [Cf Pf].
    pose proof (prox_sub n (fun _ => True) (f j) rho (F j) Cf Hr Pf (fun l => x l - u j l) y Logic.I) as P. cbv beta in P.
    rewrite (proj2 (Loc (pf j (fun l => x l - u j l) rho) x (fun i Hi => A j i Hj Hi)) j Hj) in P. eapply Rle_trans; [|exact P]. right. f_equal. f_equal.
    apply dot_ext; intros i Hi; rewrite (A j i Hj Hi); ring. }
  assert (Z : asum * rho * dot n (fun i => vg i - G vg i) (fun i => y i - G vg i) + sumn nb (fun j => alpha j * (rho * dot n (fun i => - u j i) (fun i => y i - x i))) = 0).
  { transitivity (rho * (sumn n (fun i => sumn nb (fun j => alpha j * u j i) * (y i - x i)) + sumn nb (fun j => sumn n (fun i => alpha j * (- u j i) * (y i - x i))))).
    - rewrite Rmult_plus_distr_l. f_equal.
      + unfold dot. rewrite <- !sumn_scal. apply sumn_ext. intros i Hi. rewrite (B i Hi). unfold vg. field. lra.
      + rewrite <- sumn_scal. apply sumn_ext. intros j Hj. unfold dot. rewrite <- !sumn_scal. apply sumn_ext. intros; ring.
    - rewrite (sumn_swap nb n), <- sumn_plus. rewrite sumn_0; [ring|]. intros i Hi. rewrite sumn_scal_r, <- Rmult_plus_distr_r, <- sumn_plus. rewrite (sumn_0 nb); [ring|]. intros; ring. }
  lra.
Qed.
End cons.
Print Assumptions C86_limit.
Print Assumptions C86_stationary.
Print Assumptions C86_fixed.
Print Assumptions C86_prox_firm.
Print Assumptions C86_prox_min.
Print Assumptions C86_pgm_same.
Print Assumptions C86_pgm_residual.
Print Assumptions C86_consensus_limit.
Print Assumptions C86_consensus_min.

(** ** What the solution depends on *)
(** A denoiser which ignores its second argument: the equilibrium depends on rho, although f and the denoiser stay the same. *)
Theorem C86_rho_refuted : exists (f : vec -> R) (F : R -> vec -> vec) (G : vec -> vec), convex_on (fun _ => True) f /\ firm 1 G /\
  (forall rho, 0 < rho -> proximal 1 (fun _ => True) f rho (F rho)) /\
  forall rho x, 0 < rho -> ((exists u, equilibrium 1 (F rho) G x u) <-> x O = 1 / (1 + rho)).
Proof.
  exists (fun x => / 2 * ((x O - 1) * (x O - 1))), (fun rho v _ => (1 + rho * v O) / (1 + rho)), (fun v i => v i / 2). split; [|split; [|split]].
  - intros x y t _ _ Ht. split; [exact Logic.I|]. unfold seg. assert (0 <= t * (1 - t) * ((y O - x O) * (y O - x O))) by (apply Rmult_le_pos; [nra|apply Rle_0_sqr]). nra.
  - intros a b. unfold nrm2, dot. cbn [sumn]. pose proof (Rle_0_sqr (a O - b O)) as Q. unfold Rsqr in Q. lra.
  - intros rho Hr v. split; [exact Logic.I|]. intros x _. unfold nrm2, dot. cbn [sumn]. set (p := (1 + rho * v O) / (1 + rho)). assert (E : p * (1 + rho) = 1 + rho * v O) by (unfold p; field; lra).
    assert (Q : 0 <= (1 + rho) * ((x O - p) * (x O - p))) by (apply Rmult_le_pos; [lra|apply Rle_0_sqr]).
    assert (E2 : / 2 * ((x O - 1) * (x O - 1)) + rho / 2 * (0 + (x O - v O) * (x O - v O)) - (/ 2 * ((p - 1) * (p - 1)) + rho / 2 * (0 + (p - v O) * (p - v O))) = / 2 * ((1 + rho) * ((x O - p) * (x O - p))) + (x O - p) * (p * (1 + rho) - (1 + rho * v O))) by field.
    rewrite E in E2. lra.
  - intros rho x Hr. split.
    + intros (u & A & B). specialize (A O ltac:(lia)). specialize (B O ltac:(lia)). cbv beta in A, B. assert (Eu : u O = x O) by lra. rewrite Eu in A. replace (x O - x O) with 0 in A by ring. rewrite <- A. field. lra.
    + intros E. exists x. split; intros i Hi; assert (i = O) by lia; subst i; cbv beta; rewrite ?E; field; lra.
Qed.
(** Option Monotone of the proximal gradient version compares values of f alone (pgm/ppp.py 85): started at the minimiser of f the
    solver returns the same array for every number of iterations, which is not a fixed point. *)
Definition mf (x : vec) : R := / 2 * ((x O - 1) * (x O - 1)).
Definition mgf (x : vec) : vec := fun i => x i - 1.
Definition mG (V : vec) (L : R) : vec := fun i => V i / 2.
Notation mrun N := (pgm_ppp_run 1 mf mgf mG true Nesterov N (pinit (fun _ => 1) 2 NoPolicy NoBacktrack)).
Lemma nest_ge t k : 1 <= t -> t <= mom_update Nesterov t k.
Proof.
  intros Ht. unfold mom_update. assert (2 * t - 1 <= sqrt (1 + 4 * t ^ 2)); [|lra]. rewrite <- (sqrt_square (2 * t - 1)) by lra. apply sqrt_le_1_alt. nra.
Qed.
Lemma ltb_lt a b : a < b -> ltb a b = true. Proof. intros H. unfold ltb. destruct (Rlt_dec a b); [reflexivity|contradiction]. Qed.
Lemma mono_inv N : exists s, mrun (S N) = Some s /\ pX s O = 1 / 2 /\ pXprv s = pXprv s /\ pobj s = 0 /\ pk s = S N /\ 1 / 4 <= pY s O <= 1 / 2 /\ 1 <= pt s /\ pL s = 2 /\ ppol s = NoPolicy /\ pbt s = NoBacktrack.
Proof.
  induction N as [|N (s & E & X & _ & O' & K & Y & T & L & P & B)].
  - eexists. split; [reflexivity|]. cbn -[mom_update Rinv sqrt]. unfold eval_objfn, mf, mG, mgf. cbn -[mom_update sqrt]. split; [lra|]. split; [reflexivity|]. split; [lra|]. split; [reflexivity|].
    split; [|split; [pose proof (nest_ge 1 O ltac:(lra)); lra|repeat split]].
    match goal with |- 1 / 4 <= ?a + ?b / ?c * ?d <= _ => replace b with 0 by ring; replace (0 / c * d) with 0 by (unfold Rdiv; ring) end. lra.
  - eexists. split; [unfold pgm_ppp_run in *; cbn [prun]; cbn [prun] in E; rewrite E; unfold piter, pbody; cbn [on_iteration_start pbt]; rewrite B; reflexivity|].
    set (Z := / 2 * (pY s O - 1 / 2 * (pY s O - 1))).
    assert (HX : Rmult 0 0 < / 2 * ((Z - 1) * (Z - 1))) by (unfold Z; nra). rewrite Rmult_0_l in HX.
    unfold on_iteration_start. cbn [andb]. rewrite K. cbn [Nat.eqb].
    unfold PgmModel.xstep, policy_step. cbn [ppol pk pL pX pY pXprv]. rewrite P, L. cbn [andb Nat.ltb Nat.leb pobjprev].
    rewrite O'. rewrite ltb_lt.
    2:{ unfold eval_objfn, mf, mG, mgf. unfold Z in HX. eapply Rlt_le_trans; [exact HX|]. right. field. }
    unfold setk, PgmModel.ystep. cbn [pX pXprv pobj pk pY pt pL ppol pbt andb Nat.ltb Nat.leb pZZ]. split; [exact X|]. split; [reflexivity|]. split; [reflexivity|]. split; [reflexivity|].
    pose proof (nest_ge (pt s) (S N) T) as HT. split; [|split; [lra|repeat split; assumption]].
    set (t' := mom_update Nesterov (pt s) (S N)) in *. rewrite X. unfold mG, mgf. assert (Hr : 0 < pt s / t' <= 1). { split; [apply Rdiv_lt_0_compat; lra|]. apply (Rmult_le_reg_r t'); [lra|]. unfold Rdiv. rewrite Rmult_assoc, Rinv_l by lra. lra. }
    replace (1 / 2 - 1 / 2) with 0 by ring. rewrite Rmult_0_r, Rplus_0_r. set (r := pt s / t') in *. nra.
Qed.
Theorem C86_monotone_refuted : exists n f gf proxg L X0,
  (forall x y, f x + dot n (gf x) (fun i => y i - x i) <= f y) /\ 0 < L /\ firm n (fun v => proxg v L) /\
  (exists x, (forall i, (i < n)%nat -> proxg (fun j => x j - 1 / L * gf x j) L i = x i)) /\
  exists Y, ~ (forall i, (i < n)%nat -> proxg (fun j => Y j - 1 / L * gf Y j) L i = Y i) /\
  forall N, exists s, pgm_ppp_run n f gf proxg true Nesterov (S N) (pinit X0 L NoPolicy NoBacktrack) = Some s /\ forall i, (i < n)%nat -> pX s i = Y i.
Proof.
  exists 1%nat, mf, mgf, mG, 2, (fun _ => 1). split; [|split; [lra|split; [|split]]].
  - intros x y. unfold mf, mgf, dot. cbn [sumn]. pose proof (Rle_0_sqr (y O - x O)) as Q. unfold Rsqr in Q. nra.
  - intros a b. unfold nrm2, dot, mG. cbn [sumn]. pose proof (Rle_0_sqr (a O - b O)) as Q. unfold Rsqr in Q. lra.
  - exists (fun _ => 1 / 3). intros i Hi. unfold mG, mgf. field.
  - exists (fun _ => 1 / 2). split.
    + intros H. specialize (H O ltac:(lia)). unfold mG, mgf in H. lra.
    + intros N. destruct (mono_inv N) as (s & E & X & _). exists s. split; [exact E|]. intros i Hi. assert (i = O) by lia. subst i. exact X.
Qed.
Print Assumptions C86_rho_refuted.
Print Assumptions C86_monotone_refuted.

(** A denoiser which is firmly non-expansive but no proximal operator (half of the identity plus a rotation). *)
Example C86_instance : let F := fun (v : vec) i => (v i + 1) / 2 in let G := fun (v : vec) i => match i with O => (v O - v 1%nat) / 2 | _ => (v O + v 1%nat) / 2 end in
  forall s, Un_cv (fun k => sY (ppp_iterate (3/2) F G k s) O) 0 /\ Un_cv (fun k => sY (ppp_iterate (3/2) F G k s) 1%nat) 1.
Proof.
  intros F G s.
  assert (HF : firm 2 F). { intros a b. unfold nrm2, dot, F. cbn [sumn]. pose proof (Rle_0_sqr (a O - b O)) as Q. pose proof (Rle_0_sqr (a 1%nat - b 1%nat)) as Q'. unfold Rsqr in *. lra. }
  assert (HG : firm 2 G). { intros a b. unfold nrm2, dot, G. cbn [sumn]. right. field. }
  destruct (C86_limit 2 F G (3/2) HF HG s ltac:(lra)) as (x & u & [A B] & C).
  { exists (fun i => match i with O => 0 | _ => 1 end), (fun i => match i with O => 1 | _ => 0 end). split; intros i Hi; destruct i as [|[|i]]; try lia; unfold F, G; lra. }
  pose proof (A O ltac:(lia)) as A0. pose proof (A 1%nat ltac:(lia)) as A1. pose proof (B O ltac:(lia)) as B0. pose proof (B 1%nat ltac:(lia)) as B1. unfold F, G in A0, A1, B0, B1.
  destruct (C O ltac:(lia)) as (_ & C0 & _). destruct (C 1%nat ltac:(lia)) as (_ & C1 & _). replace (x O) with 0 in C0 by lra. replace (x 1%nat) with 1 in C1 by lra. split; assumption.
Qed.
(** Two agents with weights 1 and 3, pulling towards 1 and 0. *)
Example C86_consensus_instance : let pf := fun j (v : vec) (rho : R) i => match j with O => (rho * v i + 1) / (rho + 1) | _ => rho * v i / (rho + 1) end in let al := fun j : nat => match j with O => 1 | _ => 3 end in
  forall s, Un_cv (fun k => cY (pc_iterate 2 (8/5) 1 al pf pc_prox_id k s) O) (1 / 4).
Proof.
  intros pf al s.
  assert (Ha : forall j, (j < 2)%nat -> 0 < al j) by (intros [|j] _; unfold al; lra).
  assert (HF : forall j, (j < 2)%nat -> firm 1 (fun v => pf j v 1)).
  { intros j _ a b. unfold nrm2, dot, pf. cbn [sumn]. pose proof (Rle_0_sqr (a O - b O)) as Q. unfold Rsqr in Q. destruct j; lra. }
  assert (HG : firm 1 (fun v => pc_prox_id v (sumn 2 al * 1))) by (intros a b; unfold pc_prox_id; right; reflexivity).
  destruct (C86_consensus_limit 2 1 al (8/5) 1 pf pc_prox_id ltac:(lia) ltac:(lia) Ha HF HG s ltac:(lra)) as (x & u & [A B] & C).
  { exists (fun _ => 1 / 4), (fun j _ => match j with O => 3 / 4 | _ => - (1 / 4) end). split; [intros j i Hj Hi; destruct j as [|[|j]]; try lia; unfold pf; lra|intros i Hi; unfold pc_prox_id, al; cbn [sumn]; field]. }
  pose proof (A O O ltac:(lia) ltac:(lia)) as A0. pose proof (A 1%nat O ltac:(lia) ltac:(lia)) as A1. pose proof (B O ltac:(lia)) as B0. unfold pf in A0, A1. unfold pc_prox_id, al in B0. cbn [sumn] in B0.
  destruct (C O ltac:(lia)) as [C0 _]. replace (x O) with (1 / 4) in C0; [exact C0|]. lra.
Qed.
