(** C80: the dictionary update solvers. *)
Require Import List Arith Reals Bool Lia Lra FunctionalExtensionality.
Require Import Verif.RVec Verif.Cplx Verif.FftModel Verif.FftProofs Verif.FftInv Verif.CscModel Verif.CscSpec Verif.CscProofs Verif.CscIterModel Verif.CscIterProofs.
Require Import Verif.PcnModel Verif.PcnSpec Verif.PcnProofs Verif.CcmModel Verif.CcmSpec Verif.CcmProofs Verif.CcmFit.
Require Verif.CnvrepModel.
Import ListNotations.
Local Open Scope R_scope.

(** The configurations covered: at least one spatial axis and one signal, filters no larger than the signal, and (getPcn needs it)
    two spatial axes if zero mean filters are requested. *)
Definition ccm_ok (nv : nat -> nat) (dN dC Cd K : nat) (dsz : CnvrepModel.dsize) (zm : bool) : Prop :=
  (0 < dN)%nat /\ (forall a, (a < dN)%nat -> (0 < nv a)%nat) /\ (0 < K)%nat /\ (dC = 1%nat \/ (dC = 0%nat /\ Cd = 1%nat)) /\ fits dN nv dsz /\ (zm = false \/ dN = 2%nat).

Section main.
Variables (nv : nat -> nat) (dN dC Cd K M : nat) (dsz : CnvrepModel.dsize) (zm : bool) (Z S : index -> R).
Hypothesis OK : ccm_ok nv dN dC Cd K dsz zm.
Notation fit := (fit nv dN Cd K M Z S).
Notation fit1 := (fit1 nv dN Cd M Z S).
Notation fdot := (fdot nv dN Cd).
Notation same := (same_dict nv dN Cd M).
Notation lin_ok := (lin_ok nv dN Cd M dsz zm).
Notation unit_norms := (unit_norms nv dN Cd M).
Notation critical := (critical nv dN Cd K M dsz zm Z S).
Notation sq_dist := (sq_dist nv dN Cd M).
Notation cP := (cPcn nv dN dC Cd M dsz zm).
Notation sdot := (sdot nv dN Cd M).
Notation nf := (nf nv dN Cd M dsz zm dC).
Let HN := proj1 OK.
Let Hs := proj1 (proj2 OK).
Let HK := proj1 (proj2 (proj2 OK)).
Let HdC := proj1 (proj2 (proj2 (proj2 OK))).
Let HF := proj1 (proj2 (proj2 (proj2 (proj2 OK)))).
Let HV := proj2 (proj2 (proj2 (proj2 (proj2 OK)))).
Notation gf := (gfit nv dN Cd M K (coef dN Z) (sig dN S)).
Notation gf1 k := (gfit nv dN Cd M 1 (fun _ => coef dN Z k) (fun _ => sig dN S k)).
Notation grad := (gs nv dN M K (coef dN Z) (sig dN S)).
Notation grad1 k := (gs nv dN M 1 (fun _ => coef dN Z k) (fun _ => sig dN S k)).

Lemma fit_gf d : fit d = gf d. Proof. reflexivity. Qed.
Lemma fit1_gf k d : fit1 k d = gf1 k d.
Proof. apply sumn_ext. intros c _. unfold datafit. cbn [sumn]. rewrite Rplus_0_l. reflexivity. Qed.
Lemma fit_sum d : fit d = sumn K (fun k => fit1 k d).
Proof.
  unfold CcmSpec.fit, CcmSpec.fit1. rewrite sumn_swap. apply sumn_ext. intros c _. unfold datafit. rewrite <- sumn_scal. reflexivity.
Qed.
Lemma same_refl f : same f f. Proof. intros p _. reflexivity. Qed.
Lemma same_sym f g : same f g -> same g f. Proof. intros H p Hp. symmetry. apply H. exact Hp. Qed.
Lemma same_trans f g h : same f g -> same g h -> same f h. Proof. intros H1 H2 p Hp. rewrite (H1 p Hp). apply H2. exact Hp. Qed.

(** The x-steps. *)
Lemma ism_solves rho Y U : 0 < rho -> solves_eq nv dN M K (coef dN Z) (sig dN S) rho (fun p => Y p - U p) (ism_xf nv dN K M Z S rho Y U).
Proof. intros Hr i m Hm. unfold ism_xf. apply (ism_sys M (fun _ => rho) (fun _ _ => Hr) K (fun k m => Zf nv dN Z k m i)); assumption. Qed.
Lemma cns_solves rho k Y U : 0 < rho -> solves_eq nv dN M 1 (fun _ => coef dN Z k) (fun _ => sig dN S k) rho (fun p => Y p - U p) (cns_xf nv dN M Z S rho k Y U).
Proof.
  intros Hr i m Hm. unfold cns_xf. etransitivity; [apply (dbi_sys M (fun _ => rho) (fun _ _ => Hr) (fun m => Zf nv dN Z k m i) rho); [reflexivity|exact Hm]|].
  cbv beta. unfold rhs. rewrite csumn_S, csumn_O. assert (E : forall a b, cadd a b = cadd (cadd c0 a) b) by (intros; ring). apply E.
Qed.
Theorem C80_xstep_ism rho Y U X : 0 < rho ->
  let x := ism_x nv dN K M Z S rho Y U in
  fit x + rho / 2 * sq_dist x (fun p => Y p - U p) + rho / 2 * sq_dist X x <= fit X + rho / 2 * sq_dist X (fun p => Y p - U p).
Proof. intros Hr x. apply (fit_strong nv dN Cd M HN Hs K (coef dN Z) (sig dN S) HK rho (fun p => Y p - U p) _ X Hr (ism_solves rho Y U Hr)). Qed.
Theorem C80_xstep_cns rho k Y U X : 0 < rho ->
  let x := cns_x nv dN M Z S rho k Y U in
  fit1 k x + rho / 2 * sq_dist x (fun p => Y p - U p) + rho / 2 * sq_dist X x <= fit1 k X + rho / 2 * sq_dist X (fun p => Y p - U p).
Proof.
  intros Hr x. rewrite !fit1_gf. apply (fit_strong nv dN Cd M HN Hs 1 (fun _ => coef dN Z k) (fun _ => sig dN S k) Nat.lt_0_1 rho (fun p => Y p - U p) _ X Hr (cns_solves rho k Y U Hr)).
Qed.

(** What the dual residual measures (RelaxParam 1): after an iteration, minus the penalty parameter times the sum of the new dual
    variable and the change of Y is a gradient of the fit at X (for every signal, in the consensus solver).  So when Y does not
    change, -rho U is a gradient, and otherwise the dual residual rho (Y' - Y) is the distance to one. *)
Lemma sq_dist_exp x X w : sq_dist X w = sq_dist x w + sq_dist X x + 2 * sumn M (fun m => fdot (fun p => x p - w p) (fun p => X p - x p) m).
Proof.
  unfold CcmSpec.sq_dist, CcmSpec.fdot. rewrite <- sumn_scal, <- !sumn_plus. apply sumn_ext. intros m _. rewrite <- sumn_scal, <- !sumn_plus. apply sumn_ext. intros c _.
  rewrite <- (Rmult_1_l (total _ _ (fun p => (x p - w p) * (x p - w p)) _)), <- (Rmult_1_l (total _ _ (fun p => (X p - x p) * (X p - x p)) _)), <- total_lin.
  rewrite <- (Rmult_1_l (total _ _ (fun p => 1 * _ + _) _)), <- total_lin. apply (f_equal (fun h => total nv (spat dN) h _)). extensionality p. ring.
Qed.
Lemma near_gradient (f : (index -> R) -> R) rho x w : (forall X, f x + rho / 2 * sq_dist x w + rho / 2 * sq_dist X x <= f X + rho / 2 * sq_dist X w) ->
  forall X g, (forall p, g p = - rho * (x p - w p)) -> f x + sumn M (fun m => fdot g (fun p => X p - x p) m) <= f X.
Proof.
  intros H X g Hg. specialize (H X). rewrite (sq_dist_exp x X w) in H.
  assert (E : sumn M (fun m => fdot g (fun p => X p - x p) m) = - rho * sumn M (fun m => fdot (fun p => x p - w p) (fun p => X p - x p) m)).
  { rewrite <- sumn_scal. apply sumn_ext. intros m _. unfold CcmSpec.fdot. rewrite <- sumn_scal. apply sumn_ext. intros c _.
    rewrite <- (Rplus_0_r (- rho * _)), <- (Rmult_0_l (total nv (spat dN) (fun _ => 0) (at_cm dN c m))), <- total_lin.
    apply (f_equal (fun h => total nv (spat dN) h _)). extensionality p. rewrite Hg. ring. }
  rewrite E. lra.
Qed.
Theorem C80_dual_ism rho Y U X : 0 < rho ->
  let x := ism_x nv dN K M Z S rho Y U in let Y' := ism_y nv dN dC Cd K M dsz zm Z S rho 1 Y U in let U' := ism_u nv dN dC Cd K M dsz zm Z S rho 1 Y U in
  fit x + sumn M (fun m => fdot (fun p => - rho * U' p - rho * (Y' p - Y p)) (fun p => X p - x p) m) <= fit X.
Proof.
  intros Hr x Y' U'. apply (near_gradient fit rho x (fun p => Y p - U p)); [intros X0; apply C80_xstep_ism; exact Hr|].
  intros p. unfold U', ism_u, ism_ax. fold x. fold Y'. ring.
Qed.
Theorem C80_dual_cns rho k Y U X : 0 < rho ->
  let x := cns_x nv dN M Z S rho k Y (U k) in let Y' := cns_y nv dN dC Cd K M dsz zm Z S rho 1 Y U in let U' := cns_u nv dN dC Cd K M dsz zm Z S rho 1 Y U k in
  fit1 k x + sumn M (fun m => fdot (fun p => - rho * U' p - rho * (Y' p - Y p)) (fun p => X p - x p) m) <= fit1 k X.
Proof.
  intros Hr x Y' U'. apply (near_gradient (fit1 k) rho x (fun p => Y p - U k p)); [intros X0; apply C80_xstep_cns; exact Hr|].
  intros p. unfold U', cns_u, cns_ax. fold x. fold Y'. ring.
Qed.

(** The first order condition and the constraint function. *)
Lemma cP_ext w w' : same w w' -> same (cP w) (cP w').
Proof.
  intros E. apply (cP_unique nv dN Cd M dsz zm dC HdC HF HV w (cP w') (nf w')); [apply cP_lin; assumption|apply cP_unit; assumption|intros; apply nf_pos|].
  intros z m Hm Lz. rewrite (fdot_ext nv dN Cd M w z w' z m Hm E (same_refl z)). apply cP_dot; assumption.
Qed.
Lemma lin_sub x y : lin_ok x -> lin_ok y -> lin_ok (fun p => x p - y p).
Proof. intros Hx Hy. rewrite sub_lin. apply lin_lin; assumption. Qed.
Definition only (m0 : nat) (z : index -> R) : index -> R := fun p => if Nat.eqb (p (dN + 2)%nat) m0 then z p else 0.
Lemma slice_m c m p : on_slice nv (seq 0 dN) (at_cm dN c m) p -> p (dN + 2)%nat = m.
Proof. intros [_ H]. rewrite H by (rewrite in_seq; lia). unfold at_cm. destruct (Nat.eqb_spec (dN + 2) dN); [lia|]. rewrite Nat.eqb_refl. reflexivity. Qed.
Lemma total_only m0 z f c m : (forall p, f p 0 = 0) -> total nv (seq 0 dN) (fun p => f p (only m0 z p)) (at_cm dN c m) = if Nat.eqb m m0 then total nv (seq 0 dN) (fun p => f p (z p)) (at_cm dN c m) else 0.
Proof.
  intros H0. destruct (Nat.eqb m m0) eqn:E.
  - apply total_ext; [apply ND0|]. intros p Hp. unfold only. rewrite (slice_m c m p Hp), E. reflexivity.
  - rewrite (total_ext nv (seq 0 dN) _ (fun p => 0 * 0 + 0 * 0) (at_cm dN c m) (ND0 dN)).
    + rewrite total_lin. ring.
    + intros p Hp. unfold only. rewrite (slice_m c m p Hp), E, H0. ring.
Qed.
Lemma only_lin m0 z : lin_ok z -> lin_ok (only m0 z).
Proof.
  intros [H1 H2]. split.
  - intros p Hp Hn. unfold only. rewrite (H1 p Hp Hn). destruct (Nat.eqb _ _); reflexivity.
  - intros Hz c m Hc Hm. etransitivity; [exact (total_only m0 z (fun _ v => v) c m (fun _ => eq_refl))|]. destruct (Nat.eqb m m0); [|reflexivity]. apply H2; assumption.
Qed.
Lemma fdot_only g m0 z m : fdot g (only m0 z) m = if Nat.eqb m m0 then fdot g z m else 0.
Proof.
  unfold CcmSpec.fdot, spat. destruct (Nat.eqb m m0) eqn:E.
  - apply sumn_ext. intros c _. rewrite (total_only m0 z (fun p v => g p * v) c m) by (intros; ring). rewrite E. reflexivity.
  - apply sumn_0. intros c _. rewrite (total_only m0 z (fun p v => g p * v) c m) by (intros; ring). rewrite E. reflexivity.
Qed.
Lemma sum_only lam g m0 z : (m0 < M)%nat -> sumn M (fun m => lam m * fdot g (only m0 z) m) = lam m0 * fdot g z m0.
Proof.
  intros Hm. rewrite (sumn_ext M _ (fun m => (lam m0 * fdot g z m0) * (if Nat.eqb m m0 then 1 else 0))).
  - rewrite sumn_scal. rewrite (sumn_delta M m0 (fun _ => 1)) by exact Hm. ring.
  - intros m _. rewrite fdot_only. destruct (Nat.eqb_spec m m0) as [->|]; ring.
Qed.
Lemma fdot_axpy d c G z m : fdot (fun p => d p - c * G p) z m = fdot d z m - c * fdot G z m.
Proof. transitivity (fdot (fun p => 1 * d p + - c * G p) z m); [f_equal; extensionality p; ring|]. rewrite fdot_lin_l. ring. Qed.
Lemma fdot_sub_r z x y m : fdot z (fun p => x p - y p) m = fdot z x m - fdot z y m.
Proof. transitivity (fdot z (fun p => 1 * x p + -1 * y p) m); [f_equal; extensionality p; ring|]. rewrite fdot_lin_r. ring. Qed.
Lemma crit_iff b d G : 0 < b -> (forall X, fit d + sdot G (fun p => X p - d p) <= fit X) ->
  (critical b d <-> same (cP (fun p => d p - / b * G p)) d).
Proof.
  intros Hb HG. split.
  - intros (Ld & Ud & lam & Hl & Hc).
    assert (EG : forall z m, (m < M)%nat -> lin_ok z -> fdot G z m = lam m * fdot d z m).
    { intros z m Hm Lz. apply (slope_unique nv dN Cd M K (coef dN Z) (sig dN S) d (only m z)); intros t.
      - pose proof (HG (fun p => d p + t * only m z p)) as H. rewrite !fit_gf in H.
        assert (E : sdot G (fun p => d p + t * only m z p - d p) = t * fdot G z m).
        { transitivity (sdot G (fun p => t * only m z p + 0 * z p)); [f_equal; extensionality p; ring|]. rewrite sdot_lin_r. unfold CcmFit.sdot.
          rewrite (sumn_ext M (fun m0 => fdot G (only m z) m0) (fun m0 => 1 * fdot G (only m z) m0)) by (intros; ring). rewrite (sum_only (fun _ => 1) G m z Hm). ring. }
        rewrite <- E. exact H.
      - assert (Lx : lin_ok (fun p => 1 * d p + t * only m z p)) by (apply lin_lin; [exact Ld|apply only_lin; exact Lz]).
        pose proof (Hc _ Lx) as H. rewrite !fit_gf in H. rewrite (sumn_ext M _ (fun m0 => t * (lam m0 * fdot d (only m z) m0))) in H by (intros; rewrite fdot_lin_r; ring).
        rewrite sumn_scal, (sum_only lam d m z Hm) in H. eapply Rle_trans; [exact H|]. apply Req_le. f_equal. extensionality p. ring. }
    apply (cP_unique nv dN Cd M dsz zm dC HdC HF HV _ d (fun m => 1 - lam m / b)); [exact Ld|exact Ud| |].
    + intros m Hm. specialize (Hl m Hm). apply (Rmult_lt_reg_l b); [exact Hb|]. replace (b * (1 - lam m / b)) with (b - lam m) by (field; lra). lra.
    + intros z m Hm Lz. rewrite fdot_axpy, (EG z m Hm Lz). field. lra.
  - intros E. set (w := fun p => d p - / b * G p) in *.
    assert (Ld : lin_ok d) by (apply (lin_same nv dN Cd M dsz zm (cP w)); [exact E|apply cP_lin; assumption]).
    split; [exact Ld|]. split.
    + intros m Hm. rewrite <- (fdot_ext nv dN Cd M (cP w) (cP w) d d m Hm E E). apply cP_unit; assumption.
    + exists (fun m => b * (1 - nf w m)). split.
      * intros m _. pose proof (nf_pos nv dN Cd M dsz zm dC w m). nra.
      * intros x Lx. eapply Rle_trans; [|apply HG]. apply Rplus_le_compat_l. apply Req_le. unfold CcmFit.sdot. apply sumn_ext. intros m Hm.
        assert (EG : forall z, lin_ok z -> fdot G z m = b * (1 - nf w m) * fdot d z m).
        { intros z Lz. pose proof (cP_dot nv dN Cd M dsz zm dC HdC HF HV w z m Hm Lz) as Q. rewrite (fdot_ext nv dN Cd M (cP w) z d z m Hm E (same_refl z)) in Q.
          unfold w at 1 in Q. rewrite fdot_axpy in Q.
          apply (f_equal (Rmult b)) in Q. assert (Q' : b * (fdot d z m - / b * fdot G z m) = b * fdot d z m - fdot G z m) by (field; lra). rewrite Q' in Q. lra. }
        symmetry. etransitivity; [exact (EG _ (lin_sub x d Lx Ld))|]. rewrite (fdot_sub_r d x d). ring.
Qed.
Lemma grad_ok d X : fit d + sdot (grad d) (fun p => X p - d p) <= fit X.
Proof. apply (gfit_grad nv dN Cd M HN Hs K (coef dN Z) (sig dN S) HK d X). Qed.
Lemma grad1_ok k d X : fit1 k d + sdot (grad1 k d) (fun p => X p - d p) <= fit1 k X.
Proof. rewrite !fit1_gf. apply (gfit_grad nv dN Cd M HN Hs 1 (fun _ => coef dN Z k) (fun _ => sig dN S k) Nat.lt_0_1 d X). Qed.

(** ConvCnstrMOD_IterSM stops changing exactly at the dictionaries satisfying the first order condition. *)
Theorem C80_ism rho rlx Y : 0 < rho -> rlx <> 0 ->
  ((exists U, same (ism_y nv dN dC Cd K M dsz zm Z S rho rlx Y U) Y /\ same (ism_u nv dN dC Cd K M dsz zm Z S rho rlx Y U) U) <-> critical rho Y).
Proof.
  intros Hr Hx. split.
  - intros (U & EY & EU).
    assert (Ex : same (ism_x nv dN K M Z S rho Y U) Y).
    { intros p Hp. specialize (EU p Hp). specialize (EY p Hp). unfold ism_u in EU. rewrite EY in EU. unfold ism_ax in EU. apply (Rmult_eq_reg_l rlx); lra. }
    pose proof (proj1 (fixed_iff nv dN Cd M HN Hs K (coef dN Z) (sig dN S) HK rho Y U _ Hr (ism_solves rho Y U Hr)) Ex) as H.
    apply (crit_iff rho Y (fun p => - rho * U p + 0 * U p) Hr).
    + intros X. rewrite sdot_lin_l. specialize (H X). rewrite !fit_gf. lra.
    + apply same_trans with (ism_y nv dN dC Cd K M dsz zm Z S rho rlx Y U); [|exact EY]. apply cP_ext. intros p Hp. unfold ism_ax. rewrite (Ex p Hp). field. lra.
  - intros Hc. set (U := fun p => - / rho * grad Y p). exists U.
    assert (Ex : same (ism_x nv dN K M Z S rho Y U) Y).
    { apply (fixed_iff nv dN Cd M HN Hs K (coef dN Z) (sig dN S) HK rho Y U _ Hr (ism_solves rho Y U Hr)). intros X. pose proof (grad_ok Y X) as G. rewrite !fit_gf in G.
      replace U with (fun p => - / rho * grad Y p + 0 * Y p) by (extensionality p; unfold U; ring). rewrite sdot_lin_l. rewrite Rmult_0_l, Rplus_0_r.
      set (g := CcmFit.sdot _ _ _ _ _ _) in *. replace (rho * (- / rho * g)) with (- g) by (field; lra). unfold g in *. lra. }
    assert (EY : same (ism_y nv dN dC Cd K M dsz zm Z S rho rlx Y U) Y).
    { apply same_trans with (cP (fun p => Y p - / rho * grad Y p)); [|apply (crit_iff rho Y (grad Y) Hr (grad_ok Y)); exact Hc]. apply cP_ext. intros p Hp. unfold ism_ax. rewrite (Ex p Hp). unfold U. ring. }
    split; [exact EY|]. intros p Hp. unfold ism_u, ism_ax. rewrite (EY p Hp), (Ex p Hp). ring.
Qed.
(** The consensus solver, with the penalty parameter multiplied by the number of signals. *)
Theorem C80_cns rho rlx Y : 0 < rho -> rlx <> 0 ->
  ((exists U, same (cns_y nv dN dC Cd K M dsz zm Z S rho rlx Y U) Y /\ forall k, (k < K)%nat -> same (cns_u nv dN dC Cd K M dsz zm Z S rho rlx Y U k) (U k)) <-> critical (INR K * rho) Y).
Proof.
  intros Hr Hx. assert (PK : 0 < INR K) by (apply lt_0_INR; exact HK). assert (Hb : 0 < INR K * rho) by nra. split.
  - intros (U & EY & EU).
    assert (Ex : forall k, (k < K)%nat -> same (cns_x nv dN M Z S rho k Y (U k)) Y).
    { intros k Hk p Hp. specialize (EU k Hk p Hp). specialize (EY p Hp). unfold cns_u in EU. rewrite EY in EU. unfold cns_ax in EU. apply (Rmult_eq_reg_l rlx); lra. }
    assert (SL : forall n X, sumn n (fun k => sdot (U k) (fun p => X p - Y p)) = sdot (fun p => sumn n (fun k => U k p)) (fun p => X p - Y p)).
    { intros n X. induction n as [|n IH]; cbn [sumn].
      - transitivity (sdot (fun p => 0 * Y p + 0 * Y p) (fun p => X p - Y p)); [rewrite sdot_lin_l; ring|f_equal; extensionality p; ring].
      - rewrite IH. transitivity (sdot (fun p => 1 * sumn n (fun k => U k p) + 1 * U n p) (fun p => X p - Y p)); [rewrite sdot_lin_l; ring|f_equal; extensionality p; ring]. }
    apply (crit_iff (INR K * rho) Y (fun p => - rho * sumn K (fun k => U k p) + 0 * Y p) Hb).
    + intros X. rewrite sdot_lin_l, <- SL, !fit_sum.
      assert (Q : sumn K (fun k => fit1 k Y + - rho * sdot (U k) (fun p => X p - Y p)) <= sumn K (fun k => fit1 k X)).
      { apply sumn_le. intros k Hk. rewrite !fit1_gf.
        pose proof (proj1 (fixed_iff nv dN Cd M HN Hs 1 (fun _ => coef dN Z k) (fun _ => sig dN S k) Nat.lt_0_1 rho Y (U k) _ Hr (cns_solves rho k Y (U k) Hr)) (Ex k Hk) X) as H. lra. }
      rewrite sumn_plus, sumn_scal in Q. lra.
    + apply same_trans with (cns_y nv dN dC Cd K M dsz zm Z S rho rlx Y U); [|exact EY]. apply cP_ext. intros p Hp.
      rewrite (sumn_ext K (fun k => cns_ax nv dN M Z S rho rlx Y U k p + U k p) (fun k => Y p + U k p)).
      * rewrite sumn_plus, sumn_const. field. split; lra.
      * intros k Hk. unfold cns_ax. rewrite (Ex k Hk p Hp). ring.
  - intros Hc. set (U := fun k p => - / rho * grad1 k Y p). exists U.
    assert (Ex : forall k, (k < K)%nat -> same (cns_x nv dN M Z S rho k Y (U k)) Y).
    { intros k _. apply (fixed_iff nv dN Cd M HN Hs 1 (fun _ => coef dN Z k) (fun _ => sig dN S k) Nat.lt_0_1 rho Y (U k) _ Hr (cns_solves rho k Y (U k) Hr)).
      intros X. pose proof (grad1_ok k Y X) as G. rewrite !fit1_gf in G.
      replace (U k) with (fun p => - / rho * grad1 k Y p + 0 * Y p) by (extensionality p; unfold U; ring). rewrite sdot_lin_l. rewrite Rmult_0_l, Rplus_0_r.
      set (g := CcmFit.sdot _ _ _ _ _ _) in *. replace (rho * (- / rho * g)) with (- g) by (field; lra). unfold g in *. lra. }
    assert (HG : forall X, fit Y + sdot (fun p => sumn K (fun k => grad1 k Y p)) (fun p => X p - Y p) <= fit X).
    { intros X. rewrite !fit_sum. assert (SL : forall n, sumn n (fun k => sdot (grad1 k Y) (fun p => X p - Y p)) = sdot (fun p => sumn n (fun k => grad1 k Y p)) (fun p => X p - Y p)).
      { intros n. induction n as [|n IH]; cbn [sumn].
        - transitivity (sdot (fun p => 0 * Y p + 0 * Y p) (fun p => X p - Y p)); [rewrite sdot_lin_l; ring|f_equal; extensionality p; ring].
        - rewrite IH. transitivity (sdot (fun p => 1 * sumn n (fun k => grad1 k Y p) + 1 * grad1 n Y p) (fun p => X p - Y p)); [rewrite sdot_lin_l; ring|f_equal; extensionality p; ring]. }
      rewrite <- SL, <- sumn_plus. apply sumn_le. intros k _. apply grad1_ok. }
    assert (EY : same (cns_y nv dN dC Cd K M dsz zm Z S rho rlx Y U) Y).
    { apply same_trans with (cP (fun p => Y p - / (INR K * rho) * sumn K (fun k => grad1 k Y p))); [|apply (crit_iff (INR K * rho) Y _ Hb HG); exact Hc]. apply cP_ext. intros p Hp.
      rewrite (sumn_ext K (fun k => cns_ax nv dN M Z S rho rlx Y U k p + U k p) (fun k => Y p + - / rho * grad1 k Y p)).
      - rewrite sumn_plus, sumn_const, sumn_scal. field. split; lra.
      - intros k Hk. unfold cns_ax. rewrite (Ex k Hk p Hp). unfold U. ring. }
    split; [exact EY|]. intros k Hk p Hp. unfold cns_u, cns_ax. rewrite (EY p Hp), (Ex k Hk p Hp). ring.
Qed.
(** The proximal gradient solver. *)
Lemma pgm_arg L d : same (of_spec nv dN (pgm_vf nv dN K M Z S L d)) (fun p => d p - / L * grad d p).
Proof.
  apply (same_spec nv dN Cd M HN Hs K HK). intros c m i Hm Hc Hi. symmetry.
  transitivity (rfftn nv (seq 0 dN) (fun p => 1 * filt dN d m p + - / L * filt dN (grad d) m p) i).
  - apply (f_equal (fun h => rfftn nv (seq 0 dN) h i)). extensionality p. unfold filt. ring.
  - rewrite rfftn_lin by (eapply ax_ne; eassumption). unfold gs. rewrite (spec_back nv dN HN Hs K HK (gq nv dN M K (coef dN Z) (sig dN S) d) c m i (gq_herm nv dN M HN Hs K (coef dN Z) (sig dN S) HK d m) Hi).
    unfold pgm_vf. change (gradf nv dN K M Z S (fun j => rfftn nv (axN dN) (fil dN d j)) m i) with (gq nv dN M K (coef dN Z) (sig dN S) d m i).
    change (rfftn nv (axN dN) (fil dN d m) i) with (rfftn nv (seq 0 dN) (filt dN d m) i). set (a := rfftn _ _ _ _). set (g := gq _ _ _ _ _ _ _ _ _).
    unfold csub, cadd, copp, cmul, ofR, re, im. cbn [fst snd]. unfold Rdiv. f_equal; ring.
Qed.
Theorem C80_pgm L d : 0 < L -> (same (pgm_x nv dN dC Cd K M dsz zm Z S L d) d <-> critical L d).
Proof.
  intros HL. pose proof (crit_iff L d (grad d) HL (grad_ok d)) as C. pose proof (cP_ext _ _ (pgm_arg L d)) as E. split; intros H.
  - apply C. apply same_trans with (pgm_x nv dN dC Cd K M dsz zm Z S L d); [apply same_sym; exact E|exact H].
  - apply same_trans with (cP (fun p => d p - / L * grad d p)); [exact E|]. apply C. exact H.
Qed.

(** A proximal gradient step from unit norm filters does not increase the fit, if the step size is right. *)
Notation energy := (energy nv dN Cd K M Z).
Lemma energy_gf z : energy z = gfit0 nv dN Cd M K (coef dN Z) z.
Proof. apply sumn_ext. intros c _. unfold datafit. f_equal. apply sumn_ext. intros k _. unfold sqn, spat. f_equal. extensionality p. cbv beta. ring. Qed.
Theorem C80_curvature : exists L0, 0 < L0 /\ forall z, energy z <= L0 / 2 * sumn M (fun m => fdot z z m).
Proof.
  exists (curv nv dN Cd M K (coef dN Z)). split; [apply curv_pos|]. intros z. rewrite energy_gf. apply (curv_bound nv dN Cd M HN Hs K (coef dN Z) HK).
Qed.
Lemma pgm_same L d : same (pgm_x nv dN dC Cd K M dsz zm Z S L d) (cP (fun p => d p - / L * grad d p)).
Proof. apply cP_ext. apply pgm_arg. Qed.
Lemma nearest L d w m : 0 < L -> lin_ok d -> (m < M)%nat -> fdot d d m = 1 ->
  w = (fun p => d p - / L * grad d p) -> fdot (grad d) (fun p => cP w p - d p) m + L / 2 * fdot (fun p => cP w p - d p) (fun p => cP w p - d p) m <= 0.
Proof.
  intros HL Ld Hm Hd Ew. set (x := cP w). assert (Lx : lin_ok x) by (apply cP_lin; assumption). pose proof (cP_unit nv dN Cd M dsz zm dC HdC HF HV w m Hm) as Ux. fold x in Ux.
  pose proof (nf_pos nv dN Cd M dsz zm dC w m) as Pn. set (n := nf w m) in *.
  pose proof (cP_dot nv dN Cd M dsz zm dC HdC HF HV w x m Hm Lx) as Dx. pose proof (cP_dot nv dN Cd M dsz zm dC HdC HF HV w d m Hm Ld) as Dd. fold n x in Dx, Dd.
  assert (EwL : forall z, fdot w z m = fdot d z m - / L * fdot (grad d) z m) by (intros z; rewrite Ew; apply fdot_axpy).
  rewrite EwL in Dx, Dd.
  assert (Gx : fdot (grad d) x m = L * (fdot d x m - n * fdot x x m)).
  { apply (f_equal (Rmult L)) in Dx. rewrite Rmult_minus_distr_l, <- (Rmult_assoc L (/ L)), Rinv_r, Rmult_1_l in Dx by lra. lra. }
  assert (Gd : fdot (grad d) d m = L * (1 - n * fdot x d m)).
  { apply (f_equal (Rmult L)) in Dd. rewrite Rmult_minus_distr_l, <- (Rmult_assoc L (/ L)), Rinv_r, Rmult_1_l, Hd in Dd by lra. lra. }
  assert (Q : fdot (fun p => x p - d p) (fun p => x p - d p) m = fdot x x m - 2 * fdot x d m + 1).
  { rewrite fdot_sub_r. rewrite !(fdot_sym nv dN Cd (fun p => x p - d p)), !fdot_sub_r, Hd, (fdot_sym nv dN Cd d x). ring. }
  rewrite Q, fdot_sub_r, Gx, Gd, (fdot_sym nv dN Cd d x).
  pose proof (fdot_cauchy nv dN Cd x d m) as C. rewrite Hd, Rmult_1_r in C. set (a := fdot x d m) in *. set (q := fdot x x m) in *.
  destruct Ux as [E|E]; rewrite E in *.
  - assert (a <= 1) by nra. replace (L * (a - n * 1) - L * (1 - n * a) + L / 2 * (1 - 2 * a + 1)) with (- (L * n * (1 - a))) by field. assert (0 <= L * n * (1 - a)); [|lra]. apply Rmult_le_pos; [nra|lra].
  - assert (a = 0) by nra. rewrite H. nra.
Qed.
Theorem C80_pgm_descent L0 L d : (forall z, energy z <= L0 / 2 * sumn M (fun m => fdot z z m)) -> 0 < L -> lin_ok d -> (forall m, (m < M)%nat -> fdot d d m = 1) ->
  let x := pgm_x nv dN dC Cd K M dsz zm Z S L d in fit x + (L - L0) / 2 * sq_dist x d <= fit d.
Proof.
  intros HE HL Ld Hd x0. set (x := cP (fun p => d p - / L * grad d p)). pose proof (pgm_same L d) as E. fold x x0 in E.
  assert (E1 : fit x0 = fit x) by (apply (gfit_ext nv dN Cd M HN Hs K (coef dN Z) (sig dN S) HK); exact E).
  assert (E2 : sq_dist x0 d = sq_dist x d). { apply sumn_ext. intros m Hm. apply fdot_ext with (M := M); [exact Hm| |]; intros p Hp; rewrite (E p Hp); reflexivity. }
  rewrite E1, E2.
  pose proof (gfit_exact nv dN Cd M HN Hs K (coef dN Z) (sig dN S) HK d (fun p => x p - d p)) as X.
  assert (E3 : fit x = gf d + sdot (grad d) (fun p => x p - d p) + energy (fun p => x p - d p)).
  { rewrite energy_gf. etransitivity; [|exact X]. rewrite fit_gf. f_equal. extensionality p. ring. }
  rewrite E3. pose proof (HE (fun p => x p - d p)) as HE1. change (energy (fun p => x p - d p) <= L0 / 2 * sq_dist x d) in HE1.
  assert (N : sdot (grad d) (fun p => x p - d p) + L / 2 * sq_dist x d <= 0).
  { unfold CcmFit.sdot, CcmSpec.sq_dist. rewrite <- sumn_scal, <- sumn_plus. apply Rle_trans with (sumn M (fun _ => 0)); [|rewrite sumn_0 by reflexivity; lra].
    apply sumn_le. intros m Hm. apply (nearest L d _ m HL Ld Hm (Hd m Hm) eq_refl). }
  rewrite fit_gf. set (A := sdot (grad d) _) in *. set (B := sq_dist x d) in *. lra.
Qed.
(** Every solution of the problem is stationary, once the parameter is large enough. *)
Theorem C80_minimiser d : lin_ok d -> (forall m, (m < M)%nat -> fdot d d m = 1) ->
  (forall x, lin_ok x -> (forall m, (m < M)%nat -> fdot x x m = 1) -> fit d <= fit x) -> exists b0, 0 < b0 /\ forall b, b0 <= b -> critical b d.
Proof.
  intros Ld Hd Hmin. destruct C80_curvature as (L0 & HL0 & HE).
  assert (N0 : 0 <= sumn M (fun m => Rabs (fdot (grad d) d m))) by (apply sumn_nonneg; intros; apply Rabs_pos).
  exists (L0 + 1 + sumn M (fun m => Rabs (fdot (grad d) d m))). split; [lra|]. intros b Hb. assert (Pb : 0 < b) by lra.
  apply (C80_pgm b d Pb). pose proof (C80_pgm_descent L0 b d HE Pb Ld Hd) as G. cbv zeta in G. set (x0 := pgm_x nv dN dC Cd K M dsz zm Z S b d) in *.
  pose proof (pgm_same b d) as E. fold x0 in E. set (w := fun p => d p - / b * grad d p) in *.
  assert (Lx : lin_ok x0) by (apply (lin_same nv dN Cd M dsz zm (cP w)); [apply same_sym; exact E|apply cP_lin; assumption]).
  assert (Ux : forall m, (m < M)%nat -> fdot x0 x0 m = 1).
  { intros m Hm. rewrite (fdot_ext nv dN Cd M x0 x0 (cP w) (cP w) m Hm E E). destruct (cP_unit nv dN Cd M dsz zm dC HdC HF HV w m Hm) as [U|U]; [exact U|]. exfalso.
    pose proof (cP_dot nv dN Cd M dsz zm dC HdC HF HV w d m Hm Ld) as D. pose proof (fdot_cauchy nv dN Cd (cP w) d m) as C. rewrite U, Rmult_0_l in C.
    assert (Z0 : fdot (cP w) d m = 0) by nra. rewrite Z0, Rmult_0_r in D. unfold w in D. rewrite fdot_axpy, (Hd m Hm) in D.
    pose proof (sumn_ge_term M (fun m => Rabs (fdot (grad d) d m)) m ltac:(intros; apply Rabs_pos) Hm) as B. cbv beta in B. pose proof (Rle_abs (fdot (grad d) d m)) as B1.
    apply (f_equal (Rmult b)) in D. rewrite Rmult_minus_distr_l, <- (Rmult_assoc b (/ b)), Rinv_r in D by lra. lra. }
  pose proof (Hmin x0 Lx Ux) as G1.
  assert (Sq : sdot (fun p => x0 p - d p) (fun p => x0 p - d p) = 0).
  { pose proof (sdot_nonneg nv dN Cd M (fun p => x0 p - d p)) as P. change (sq_dist x0 d) with (sdot (fun p => x0 p - d p) (fun p => x0 p - d p)) in G. nra. }
  intros p Hp. pose proof (sdot_zero nv dN Cd M _ Sq p Hp) as Q. cbv beta in Q. lra.
Qed.
(** Multipliers which are not positive certify a solution, also among the dictionaries with norms at most one. *)
Theorem C80_optimal d lam : lin_ok d -> unit_norms d -> (forall m, (m < M)%nat -> lam m <= 0) ->
  (forall x, lin_ok x -> fit d + sumn M (fun m => lam m * (fdot d x m - fdot d d m)) <= fit x) ->
  forall x, lin_ok x -> (forall m, (m < M)%nat -> fdot x x m <= 1) -> fit d <= fit x.
Proof.
  intros Ld Ud Hl Hc x Lx Nx. specialize (Hc x Lx). assert (P : 0 <= sumn M (fun m => lam m * (fdot d x m - fdot d d m))); [|lra].
  apply sumn_nonneg. intros m Hm. specialize (Hl m Hm). specialize (Nx m Hm). pose proof (fdot_cauchy nv dN Cd d x m) as C. pose proof (fdot_nonneg nv dN Cd x m) as N.
  set (a := fdot d x m) in *. set (q := fdot x x m) in *. destruct (Ud m Hm) as [E|E]; rewrite E in *.
  - assert (a <= 1) by nra. nra.
  - assert (a = 0) by nra. rewrite H. lra.
Qed.
End main.
(** The converse fails: the constraint set is not convex, and a dictionary at which every one of the solvers stays can be far from
    the solution.  One sample, one filter of length one, coefficient and signal equal to one: d = -1 is stationary for every
    parameter above two, d = 1 is the solution. *)
Lemma one_slice (nv : nat -> nat) p : nv = (fun _ => 1%nat) -> entry nv 1 1 1 p -> p = fun _ => O.
Proof.
  intros -> (c & m & Hc & Hm & H1 & H2). extensionality a. destruct (Nat.eq_dec a 0) as [->|N]; [specialize (H1 O Nat.lt_0_1); lia|]. rewrite H2 by lia. unfold at_cm. destruct (Nat.eqb a 1); [lia|]. destruct (Nat.eqb a (1 + 2)); lia.
Qed.
Theorem C80_stationary_refuted :
  let nv := fun _ : nat => 1%nat in let dsz := CnvrepModel.Flat [1; 1]%nat in let Z := fun _ : index => 1 in let S := fun _ : index => 1 in
  ccm_ok nv 1 0 1 1 dsz false /\ (forall b, 2 < b -> critical nv 1 1 1 1 dsz false Z S b (fun _ => -1)) /\
  lin_ok nv 1 1 1 dsz false (fun _ => 1) /\ unit_norms nv 1 1 1 (fun _ => 1) /\
  fit nv 1 1 1 1 Z S (fun _ => 1) = 0 /\ fit nv 1 1 1 1 Z S (fun _ => -1) = 2.
Proof.
  cbv zeta. set (nv := fun _ : nat => 1%nat).
  assert (EF : forall x, fit nv 1 1 1 1 (fun _ => 1) (fun _ => 1) x = / 2 * ((x (fun _ => O) - 1) * (x (fun _ => O) - 1))).
  { intros x. unfold fit, datafit, sqn, synth, conv, spat, nv, filt, coef, sig, ext. cbn [sumn seq total forallb]. cbn -[set_at minus at_cm].
    set (y := x _). assert (E : y = x (fun _ => O)).
    { unfold y. f_equal. extensionality a. unfold set_at, minus, at_cm. cbn [existsb]. destruct (Nat.eqb_spec a 3); [reflexivity|]. destruct (Nat.eqb_spec a 2); [reflexivity|].
      destruct (Nat.eqb_spec a 0) as [->|]; [reflexivity|]. cbn [orb]. destruct (Nat.eqb_spec a 1); [reflexivity|]. destruct (Nat.eqb a (1 + 2)); reflexivity. }
    rewrite <- E. clearbody y. unfold set_at. cbn. field. }
  assert (ED : forall x y, fdot nv 1 1 x y 0 = x (fun _ => O) * y (fun _ => O)).
  { intros x y. unfold fdot, spat, nv. cbn [sumn seq total]. assert (E : set_at (at_cm 1 0 0) 0 0 = (fun _ => O)).
    { extensionality a. unfold set_at, at_cm. destruct (Nat.eqb_spec a 0); [reflexivity|]. destruct (Nat.eqb a 1); [reflexivity|]. destruct (Nat.eqb a (1 + 2)); reflexivity. }
    rewrite E. ring. }
  assert (EL : forall x, lin_ok nv 1 1 1 (CnvrepModel.Flat [1; 1]%nat) false x).
  { intros x. split; [|discriminate]. intros p Hp Hn. exfalso. apply Hn. rewrite (one_slice nv p eq_refl Hp). intros a Ha. assert (a = O) by lia. subst. simpl. lia. }
  assert (EU : forall c, c = 1 \/ c = -1 -> unit_norms nv 1 1 1 (fun _ => c)) by (intros c Hc m Hm; assert (m = O) by lia; subst; rewrite ED; left; destruct Hc as [-> | ->]; ring).
  split; [|split; [|split; [|split; [|split]]]].
  - split; [lia|]. split; [intros; unfold nv; lia|]. split; [lia|]. split; [right; split; reflexivity|]. split; [|left; reflexivity].
    intros s Hs i Hi. assert (i = O) by lia. subst. destruct Hs as [<-|[]]. unfold nv. simpl. lia.
  - intros b Hb. split; [apply EL|]. split; [apply EU; right; reflexivity|]. exists (fun _ => 2). split; [intros; lra|]. intros x _. cbn [sumn]. rewrite !EF, !ED. cbv beta. pose proof (Rle_0_sqr (x (fun _ => O) + 1)) as Q. unfold Rsqr in Q. nra.
  - apply EL.
  - apply EU. left. reflexivity.
  - rewrite EF. ring.
  - rewrite EF. field.
Qed.
(** Two spatial axes, two channels, three filters of two sizes, zero mean, two signals. *)
Example C80_instance :
  ccm_ok (fun _ => 4%nat) 2 1 2 2 (CnvrepModel.Blocks [CnvrepModel.Blk [2; 2; 2; 1]%nat; CnvrepModel.Blk [1; 3; 2; 2]%nat]) true /\
  exists x, lin_ok (fun _ => 4%nat) 2 2 3 (CnvrepModel.Flat [2; 2; 2; 3]%nat) true x /\ fdot (fun _ => 4%nat) 2 2 x x 1 = 1.
Proof.
  split.
  - split; [lia|]. split; [intros; lia|]. split; [lia|]. split; [left; reflexivity|]. split; [|right; reflexivity].
    intros s Hs i Hi. repeat (destruct Hs as [<-|Hs]; [destruct i as [|[|]]; simpl; lia|]). destruct Hs.
  - exists (fun i => if Nat.eqb (i 0%nat) 0 then if Nat.eqb (i 1%nat) 0 then / 2 else if Nat.eqb (i 1%nat) 1 then - / 2 else 0 else 0). split; [split|].
    + intros p _ Hn. destruct (Nat.eqb_spec (p 0%nat) 0) as [E0|]; [|reflexivity]. destruct (Nat.eqb_spec (p 1%nat) 0) as [E1|]; [|destruct (Nat.eqb_spec (p 1%nat) 1) as [E1|]; [|reflexivity]];
        exfalso; apply Hn; intros [|[|]] Ha; simpl; lia.
    + intros _ c m _ _. unfold spat. cbn. lra.
    + unfold fdot, spat. cbn. lra.
Qed.
Print Assumptions C80_dual_ism.
Print Assumptions C80_dual_cns.
Print Assumptions C80_xstep_ism.
Print Assumptions C80_xstep_cns.
Print Assumptions C80_ism.
Print Assumptions C80_cns.
Print Assumptions C80_pgm.
Print Assumptions C80_curvature.
Print Assumptions C80_pgm_descent.
Print Assumptions C80_minimiser.
Print Assumptions C80_optimal.
Print Assumptions C80_stationary_refuted.
