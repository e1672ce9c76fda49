(** C50: dictionary learning by alternation. *)
Require Import Reals List Arith Bool Lia Lra.
Require Import Verif.DlModel.
Import ListNotations.
Local Open Scope R_scope.

(** ** What the stages hold *)
Section Spec.
Context {A M : Type}.
Variable f : fns A M.
(** The sparse coding stage holds the dictionary [D]: the attribute and everything computed from it. *)
Definition holds_dict (x : xst A M) (D : A) : Prop :=
  match x with
  | XA _ _ s => xa_D A s = D /\ xa_Df A s = fftD A M f D /\ xa_DSf A s = dsf A M f (fftD A M f D)
  | XP _ _ s => xp_D A M s = D /\ xp_Df A M s = fftD A M f D
  end.
(** The dictionary update stage holds the coefficients [Z]. *)
Definition holds_coef (d : dst A M) (Z : A) : Prop :=
  match d with
  | DA _ _ s => da_Z A s = Some (Z, fftZ A M f Z, zsf A M f (fftZ A M f Z))
  | DP _ _ s => dp_Z A M s = Some (Z, fftZ A M f Z)
  end.
End Spec.

Section Proofs.
Context {A M : Type}.
Variables (f : fns A M) (o : opts).
Variables (xstop dstop : nat -> A -> A -> bool).
Notation xsolve := (xsolve A M f o xstop).
Notation dsolve := (dsolve A M f o dstop).
Notation getcoef := (getcoef A M o).
Notation getdict := (getdict A M f).
Notation full := (getdict_full A M).
Notation setdict := (setdict A M f).
Notation setcoef := (setcoef A M f).
Notation dl_calls := (dl_calls A M f o xstop dstop).
Notation dl_loop := (dl_loop A M f o xstop dstop).
Notation dl_solve := (dl_solve A M f o xstop dstop).
Notation objfun := (objfun A M f o).

Lemma xa_iter_keep : forall s, let s' := xa_iter A M f o s in
  xa_D A s' = xa_D A s /\ xa_Df A s' = xa_Df A s /\ xa_DSf A s' = xa_DSf A s.
Proof. intros s. unfold xa_iter. cbv zeta. destruct (xrho A M f _ _ _ _ _ _). repeat split. Qed.
Lemma xa_loop_keep : forall n s, let s' := xa_loop A M f o xstop n s in
  xa_D A s' = xa_D A s /\ xa_Df A s' = xa_Df A s /\ xa_DSf A s' = xa_DSf A s.
Proof.
  induction n as [|n IH]; intros s; cbv zeta; [repeat split | ]. cbn [xa_loop]. cbv zeta.
  destruct (xa_iter_keep s) as (E1 & E2 & E3). cbv zeta in *. destruct (xstop _ _ _); [repeat split; assumption | ].
  destruct (IH (xa_iter A M f o s)) as (F1 & F2 & F3). repeat split; congruence.
Qed.
Lemma xp_loop_keep : forall n s, let s' := xp_loop A M f xstop n s in xp_D A M s' = xp_D A M s /\ xp_Df A M s' = xp_Df A M s.
Proof.
  induction n as [|n IH]; intros s; cbv zeta; [repeat split | ]. cbn [xp_loop]. cbv zeta.
  destruct (xstop _ _ _); [repeat split | ]. destruct (IH (xp_iter A M f s)) as (F1 & F2). split; [rewrite F1 | rewrite F2]; reflexivity.
Qed.
Lemma xsolve_keep : forall x D, holds_dict f x D -> holds_dict f (xsolve x) D.
Proof.
  intros [s|s] D H; cbn [DlModel.xsolve holds_dict] in *.
  - destruct (xa_loop_keep (xmax o) s) as (E1 & E2 & E3). cbv zeta in *. rewrite E1, E2, E3. exact H.
  - destruct (xp_loop_keep (xmax o) s) as (E1 & E2). cbv zeta in *. rewrite E1, E2. exact H.
Qed.
Lemma setdict_holds : forall x D, holds_dict f (setdict D x) D.
Proof. intros [s|s] D; repeat split. Qed.
Lemma setdict_coef : forall x D, getcoef (setdict D x) = getcoef x.
Proof. intros [s|s] D; reflexivity. Qed.
Lemma setcoef_holds : forall d Z, holds_coef f (setcoef Z d) Z.
Proof. intros [s|s] Z; reflexivity. Qed.
Lemma setcoef_full : forall d Z, full (setcoef Z d) = full d.
Proof. intros [s|s] Z; reflexivity. Qed.

Variable feas : A -> Prop.
Hypothesis pcn_feas : forall v, feas (pcn A M f v).

Lemma da_iter_ok : forall s Z, holds_coef f (DA A M s) Z -> exists s', da_iter A M f s = Some s' /\ holds_coef f (DA A M s') Z /\ feas (da_Y A s').
Proof.
  intros s Z H. cbn [holds_coef] in H. unfold da_iter. rewrite H. destruct (drhof A M f _ _ _ _ _ _). eexists. split; [reflexivity | ].
  split; [reflexivity | apply pcn_feas].
Qed.
Lemma da_loop_ok : forall n s Z, holds_coef f (DA A M s) Z -> feas (da_Y A s) ->
  exists s', da_loop A M f dstop n s = Some s' /\ holds_coef f (DA A M s') Z /\ feas (da_Y A s').
Proof.
  induction n as [|n IH]; intros s Z H Hf; [exists s; repeat split; assumption | ]. cbn [da_loop].
  destruct (da_iter_ok s Z H) as (s' & E & H' & Hf'). rewrite E. destruct (dstop _ _ _); [exists s'; repeat split; assumption | ].
  apply IH; assumption.
Qed.
Lemma dp_loop_ok : forall n s Z, holds_coef f (DP A M s) Z -> feas (dp_X A M s) ->
  exists s', dp_loop A M f dstop n s = Some s' /\ holds_coef f (DP A M s') Z /\ feas (dp_X A M s').
Proof.
  induction n as [|n IH]; intros s Z H Hf; [exists s; repeat split; assumption | ]. cbn [dp_loop].
  cbn [holds_coef] in H. unfold dp_iter. rewrite H. set (s' := mkDP _ _ _ _ _ _).
  assert (H' : holds_coef f (DP A M s') Z) by reflexivity.
  assert (Hf' : feas (dp_X A M s')) by apply pcn_feas.
  destruct (dstop _ _ _); [exists s'; repeat split; assumption | ]. apply IH; assumption.
Qed.
Lemma dsolve_ok : forall d Z, holds_coef f d Z -> feas (full d) -> exists d', dsolve d = Some d' /\ holds_coef f d' Z /\ feas (full d').
Proof.
  intros [s|s] Z H Hf; cbn [DlModel.dsolve].
  - destruct (da_loop_ok (dmax o) s Z H Hf) as (s' & E & H1 & H2). rewrite E. exists (DA A M s'). repeat split; assumption.
  - destruct (dp_loop_ok (dmax o) s Z H Hf) as (s' & E & H1 & H2). rewrite E. exists (DP A M s'). repeat split; assumption.
Qed.

(** One outer iteration. *)
Lemma iteration_ok : forall x d, feas (full d) -> exists d', dsolve (setcoef (getcoef (xsolve x)) d) = Some d' /\
  let x' := setdict (getdict d') (xsolve x) in
  holds_dict f x' (getdict d') /\ feas (full d') /\ getcoef x' = getcoef (xsolve x) /\ holds_coef f d' (getcoef x').
Proof.
  intros x d Hf. destruct (dsolve_ok (setcoef (getcoef (xsolve x)) d) (getcoef (xsolve x))) as (d' & E & H1 & H2).
  - apply setcoef_holds.
  - rewrite setcoef_full. exact Hf.
  - exists d'. split; [exact E | ]. cbv zeta. split; [apply setdict_holds | ]. split; [exact H2 | ]. split; [apply setdict_coef | ].
    rewrite setdict_coef. exact H1.
Qed.

Definition inv (P : xst A M -> dst A M -> R -> Prop) (s : dl A M) : Prop :=
  holds_dict f (dl_x A M s) (getdict (dl_d A M s)) /\ feas (full (dl_d A M s)) /\
  (dl_it A M s = [] \/
   holds_coef f (dl_d A M s) (getcoef (dl_x A M s)) /\ exists l j v, dl_it A M s = l ++ [(j, v)] /\ P (dl_x A M s) (dl_d A M s) v).

Lemma loop_inv : forall (P : xst A M -> dst A M -> R -> Prop) cb n j s,
  (forall x d d', feas (full d) -> dsolve (setcoef (getcoef (xsolve x)) d) = Some d' -> let x' := setdict (getdict d') (xsolve x) in P x' d' (objfun x' d')) ->
  inv P s -> exists s', dl_loop cb n j s = Some s' /\ inv P s' /\ (n <> 0%nat -> dl_it A M s' <> []).
Proof.
  intros P cb n. induction n as [|n IH]; intros j s HP H; [exists s; split; [reflexivity | split; [exact H | congruence]] | ].
  cbn [DlModel.dl_loop]. cbv zeta. destruct H as (H1 & H2 & H3).
  destruct (iteration_ok (dl_x A M s) (dl_d A M s) H2) as (d' & E & K). cbv zeta in K. rewrite E.
  set (x' := setdict (getdict d') (xsolve (dl_x A M s))) in *. destruct K as (K1 & K2 & K3 & K4).
  set (s1 := mkDl A M x' d' j (dl_it A M s ++ [(j, objfun x' d')])).
  assert (I : inv P s1).
  { split; [exact K1 | ]. split; [exact K2 | ]. right. split; [exact K4 | ]. exists (dl_it A M s), j, (objfun x' d'). split; [reflexivity | ].
    apply (HP (dl_x A M s) (dl_d A M s) d' H2 E). }
  assert (N : dl_it A M s1 <> []) by (cbn [dl_it s1]; destruct (dl_it A M s); discriminate).
  destruct (cb j x' d').
  - exists s1. split; [reflexivity | ]. split; [exact I | intros _; exact N].
  - destruct (IH (S j) s1 HP I) as (s' & F1 & F2 & F3). exists s'. split; [exact F1 | ]. split; [exact F2 | ]. intros _.
    destruct n; [cbn in F1; injection F1 as <-; exact N | apply F3; discriminate].
Qed.

Lemma calls_inv : forall (P : xst A M -> dst A M -> R -> Prop) l s,
  (forall x d d', feas (full d) -> dsolve (setcoef (getcoef (xsolve x)) d) = Some d' -> let x' := setdict (getdict d') (xsolve x) in P x' d' (objfun x' d')) ->
  inv P s -> exists s', dl_calls l s = Some s' /\ inv P s' /\ ((exists cb n, In (cb, n) l /\ n <> 0%nat) \/ dl_it A M s <> [] -> dl_it A M s' <> []).
Proof.
  intros P l. induction l as [|[cb n] l IH]; intros s HP H.
  - exists s. split; [reflexivity | ]. split; [exact H | ]. intros [(cb & n & [] & _)|N]; exact N.
  - cbn [DlModel.dl_calls]. unfold DlModel.dl_solve. destruct (loop_inv P cb n (dl_j A M s) s HP H) as (s1 & E1 & I1 & N1). rewrite E1.
    destruct (IH (mkDl A M (dl_x A M s1) (dl_d A M s1) (S (dl_j A M s1)) (dl_it A M s1)) HP I1) as (s2 & E2 & I2 & N2).
    exists s2. split; [exact E2 | ]. split; [exact I2 | ]. intros Hn. apply N2.
    destruct Hn as [(cb' & n' & [Ha|Ha] & Hz)|Hn].
    + right. injection Ha as <- <-. cbn [dl_it]. apply N1. exact Hz.
    + left. exists cb', n'. split; assumption.
    + right. cbn [dl_it]. destruct (Nat.eq_dec n 0) as [->|Hz]; [ | apply N1; exact Hz]. cbn in E1. injection E1 as <-. exact Hn.
Qed.
End Proofs.

(** ** The properties *)
(** After any history of calls of solve, with any numbers of outer and inner iterations and any callbacks: the run does not fail; the sparse
    coding stage holds the dictionary getdict() of the update stage, which satisfies the constraint; and once an outer iteration has been made
    the update stage holds the coefficients getcoef() of the sparse coding stage. The constructor establishes the hypotheses on [s0]. *)
Theorem C50_coherent : forall (A M : Type) (f : fns A M) o xstop dstop (feas : A -> Prop), (forall v, feas (pcn A M f v)) ->
  forall s0, holds_dict f (dl_x A M s0) (getdict A M f (dl_d A M s0)) -> feas (getdict_full A M (dl_d A M s0)) -> dl_it A M s0 = [] ->
  forall calls, exists s, dl_calls A M f o xstop dstop calls s0 = Some s /\
  holds_dict f (dl_x A M s) (getdict A M f (dl_d A M s)) /\ feas (getdict_full A M (dl_d A M s)) /\
  ((exists cb n, In (cb, n) calls /\ n <> 0%nat) -> holds_coef f (dl_d A M s) (getcoef A M o (dl_x A M s))).
Proof.
  intros A M f o xstop dstop feas Hp s0 H1 H2 H3 calls.
  destruct (calls_inv f o xstop dstop feas Hp (fun _ _ _ => True) calls s0) as (s & E & (I1 & I2 & I3) & N).
  - intros x d d' _ _. exact I.
  - split; [exact H1 | ]. split; [exact H2 | ]. left. exact H3.
  - exists s. split; [exact E | ]. split; [exact I1 | ]. split; [exact I2 | ]. intros Hc.
    destruct I3 as [I3|[I3 _]]; [ | exact I3]. exfalso. apply (N (or_introl Hc)). exact I3.
Qed.
Print Assumptions C50_coherent.

(** One outer iteration: the dictionary update is computed for the coefficients of the same iteration. *)
Theorem C50_iteration : forall (A M : Type) (f : fns A M) o xstop dstop (feas : A -> Prop), (forall v, feas (pcn A M f v)) ->
  forall cb s s1, feas (getdict_full A M (dl_d A M s)) -> dl_solve A M f o xstop dstop cb 1 s = Some s1 ->
  let x1 := xsolve A M f o xstop (dl_x A M s) in
  exists d1, dsolve A M f o dstop (setcoef A M f (getcoef A M o x1) (dl_d A M s)) = Some d1 /\
  dl_d A M s1 = d1 /\ dl_x A M s1 = setdict A M f (getdict A M f d1) x1 /\ getcoef A M o (dl_x A M s1) = getcoef A M o x1 /\
  holds_coef f d1 (getcoef A M o x1) /\ feas (getdict_full A M d1).
Proof.
  intros A M f o xstop dstop feas Hp cb s s1 Hf E x1.
  destruct (iteration_ok f o xstop dstop feas Hp (dl_x A M s) (dl_d A M s) Hf) as (d' & E' & K1 & K2 & K3 & K4). fold x1 in E', K1, K3, K4.
  exists d'. split; [exact E' | ]. unfold dl_solve in E. cbn [dl_loop] in E. cbv zeta in E. fold x1 in E. rewrite E' in E.
  assert (E2 : s1 = mkDl A M (setdict A M f (getdict A M f d') x1) d' (S (dl_j A M s))
    (dl_it A M s ++ [(dl_j A M s, objfun A M f o (setdict A M f (getdict A M f d') x1) d')])).
  { destruct (cb _ _ _); cbn in E; injection E as <-; reflexivity. }
  subst s1. cbn [dl_d dl_x]. repeat split; try assumption. rewrite <- K3. exact K4.
Qed.
Print Assumptions C50_iteration.

(** With AccurateDFid the last record holds the objective of the returned dictionary and coefficients, if the coefficients returned are the
    auxiliary variable (ReturnX False), and padding restores a cropped feasible dictionary. *)
Theorem C50_accurate : forall (A M : Type) (f : fns A M) o xstop dstop (feas : A -> Prop), (forall v, feas (pcn A M f v)) ->
  (forall D, feas D -> fftD A M f (crop A M f D) = fftD A M f D) ->
  accurate o = true -> returnx o = false ->
  forall s0, holds_dict f (dl_x A M s0) (getdict A M f (dl_d A M s0)) -> feas (getdict_full A M (dl_d A M s0)) -> dl_it A M s0 = [] ->
  forall calls, exists s, dl_calls A M f o xstop dstop calls s0 = Some s /\
  ((exists cb n, In (cb, n) calls /\ n <> 0%nat) -> exists l j, dl_it A M s =
     l ++ [(j, dfid A M f (fftD A M f (getdict A M f (dl_d A M s))) (getcoef A M o (dl_x A M s)) + lmbda A M f * l1 A M f (getcoef A M o (dl_x A M s)))]).
Proof.
  intros A M f o xstop dstop feas Hp Hc Ha Hr s0 H1 H2 H3 calls.
  set (P := fun (x : xst A M) (d : dst A M) (v : R) => v = dfid A M f (fftD A M f (getdict A M f d)) (getcoef A M o x) + lmbda A M f * l1 A M f (getcoef A M o x)).
  destruct (calls_inv f o xstop dstop feas Hp P calls s0) as (s & E & (I1 & I2 & I3) & N).
  - intros x d d' Hf E. destruct (iteration_ok f o xstop dstop feas Hp x d Hf) as (d2 & E2 & K1 & K2 & _). rewrite E in E2. injection E2 as <-.
    unfold P. cbv zeta. unfold objfun, evaluate. rewrite Ha.
    replace (fftD A M f (getdict A M f d')) with (fftD A M f (getdict_full A M d')) by (symmetry; apply (Hc _ K2)).
    assert (V : forall y, var_of A M y = getcoef A M o y) by (intros [y|y]; cbn [var_of getcoef]; rewrite ?Hr; reflexivity).
    rewrite V. reflexivity.
  - split; [exact H1 | ]. split; [exact H2 | ]. left. exact H3.
  - exists s. split; [exact E | ]. intros Hn. destruct I3 as [I3|(_ & l & j & v & El & Pv)].
    + exfalso. apply (N (or_introl Hn)). exact I3.
    + exists l, j. rewrite El, Pv. reflexivity.
Qed.
Print Assumptions C50_accurate.

(** Without it, the record holds the (weighted) objective of the new coefficients with the dictionary of the previous iteration. *)
Theorem C50_estimate : forall (A M : Type) (f : fns A M) o xstop dstop, accurate o = false -> returnx o = false -> fevalx o = false -> gevaly o = true ->
  xmax o <> 0%nat -> forall cb s s1 D, holds_dict f (dl_x A M s) D -> dl_solve A M f o xstop dstop cb 1 s = Some s1 ->
  dl_it A M s1 = dl_it A M s ++ [(dl_j A M s, dfid A M f (fftD A M f D) (getcoef A M o (dl_x A M s1)) + lmbda A M f * l1w A M f (getcoef A M o (dl_x A M s1)))].
Proof.
  intros A M f o xstop dstop Ha Hr Hfe Hg Hx cb s s1 D HD E. unfold dl_solve in E. cbn [dl_loop] in E. cbv zeta in E.
  set (x1 := xsolve A M f o xstop (dl_x A M s)) in *. destruct (dsolve A M f o dstop _) as [d1|]; [ | discriminate].
  set (x' := setdict A M f (getdict A M f d1) x1) in *.
  assert (E2 : s1 = mkDl A M x' d1 (S (dl_j A M s)) (dl_it A M s ++ [(dl_j A M s, objfun A M f o x' d1)])) by (destruct (cb _ _ _); cbn in E; injection E as <-; reflexivity).
  subst s1. cbn [dl_it dl_x]. f_equal. f_equal. f_equal. unfold objfun, evaluate. rewrite Ha.
  assert (K : xobj A M x1 = Some (dfid A M f (fftD A M f D) (getcoef A M o x1) + lmbda A M f * l1w A M f (getcoef A M o x1))).
  { unfold x1. destruct (dl_x A M s) as [y|y]; cbn [xsolve xobj getcoef holds_dict] in *; rewrite ?Hr.
    - destruct HD as (_ & HD & _). clear - Hx HD Hfe Hg. revert y HD. induction (xmax o) as [|n IH]; [congruence | ]. intros y HD.
      cbn [xa_loop]. cbv zeta.
      assert (L : xa_obj A (xa_iter A M f o y) = Some (dfid A M f (fftD A M f D) (xa_Y A (xa_iter A M f o y)) + lmbda A M f * l1w A M f (xa_Y A (xa_iter A M f o y)))
        /\ xa_Df A (xa_iter A M f o y) = fftD A M f D).
      { unfold xa_iter. cbv zeta. destruct (xrho A M f _ _ _ _ _ _). cbn [xa_obj xa_Y xa_Df]. rewrite Hfe, Hg, HD. split; reflexivity. }
      destruct (xstop _ _ _); [apply L | ]. destruct n as [|n]; [apply L | ]. apply IH; [discriminate | apply L].
    - destruct HD as (_ & HD). clear - Hx HD. revert y HD. induction (xmax o) as [|n IH]; [congruence | ]. intros y HD.
      cbn [xp_loop]. cbv zeta.
      assert (L : xp_obj A M (xp_iter A M f y) = Some (dfid A M f (fftD A M f D) (xp_X A M (xp_iter A M f y)) + lmbda A M f * l1w A M f (xp_X A M (xp_iter A M f y)))
        /\ xp_Df A M (xp_iter A M f y) = fftD A M f D).
      { unfold xp_iter. cbv zeta. cbn [xp_obj xp_X xp_Df]. rewrite HD. split; reflexivity. }
      destruct (xstop _ _ _); [apply L | ]. destruct n as [|n]; [apply L | ]. apply IH; [discriminate | apply L]. }
  assert (K2 : xobj A M x' = xobj A M x1) by (unfold x'; destruct x1; reflexivity).
  assert (K3 : getcoef A M o x' = getcoef A M o x1) by (unfold x'; destruct x1; reflexivity).
  rewrite K2, K3, K. reflexivity.
Qed.
Print Assumptions C50_estimate.

(** A scalar instance: S = 1, D in [-1, 1], objective (D X - 1)^2/2 + |X|/4, coefficient weight 2. *)
Definition fs : fns R unit := mkFns R unit (fun d => d) (fun d => d) (fun z => z) (fun z => z) (fun d => d) (fun d => Rmax (-1) (Rmin 1 d))
  (fun rho df dsf y u => (dsf + rho * (y - u)) / (df ^ 2 + rho)) (fun x _ => x) (fun rho ax u => Rmax 0 (ax + u - 1 / 2 / rho)) (fun u ax y => u + ax - y)
  (fun _ _ _ _ u rho => (rho, u)) (fun rho zf zsf y u => (zsf + rho * (y - u)) / (zf ^ 2 + rho)) (fun x _ => x) (fun ax u => ax + u) (fun u ax y => u + ax - y)
  (fun _ _ _ _ u rho => (rho, u)) (fun _ _ x _ => x) (fun _ _ _ _ v => v) (fun _ _ _ m _ => m) (fun _ x _ => x) (fun _ _ m _ => m)
  (fun d x => (d * x - 1) ^ 2 / 2) (fun x => 2 * Rabs x) (fun x => Rabs x) (1 / 4).
Definition ss (D0 Y0 : R) : dl R unit := mkDl R unit (XA R unit (mkXA R D0 D0 D0 Y0 Y0 0 1 0 None)) (DA R unit (mkDA R None D0 D0 0 1 0)) 0 [].
Definition os (mx : nat) (rx acc : bool) : opts := mkOpts mx 1 rx false true acc.
Definition nostop : nat -> R -> R -> bool := fun _ _ _ => false.
(** The objective. *)
Definition Js (w D X : R) : R := (D * X - 1) ^ 2 / 2 + 1 / 4 * (w * Rabs X).

Example C50_coherent_ex : holds_dict fs (dl_x R unit (ss 1 0)) (getdict R unit fs (dl_d R unit (ss 1 0))) /\
  (forall v, -1 <= pcn R unit fs v <= 1) /\ -1 <= getdict_full R unit (dl_d R unit (ss 1 0)) <= 1 /\
  (forall D, fftD R unit fs (crop R unit fs D) = fftD R unit fs D).
Proof.
  split; [repeat split | ]. split; [ | split; [cbn; lra | reflexivity]]. intros v. cbn. split; [apply Rmax_l | ].
  apply Rmax_lub; [lra | apply Rmin_l].
Qed.

Lemma run_ss : forall mx rx acc D0 Y0 s, dl_solve R unit fs (os mx rx acc) nostop nostop (fun _ _ _ => false) 1 (ss D0 Y0) = Some s ->
  let x := xa_loop R unit fs (os mx rx acc) nostop mx (mkXA R D0 D0 D0 Y0 Y0 0 1 0 None) in
  let Z := if rx then xa_X R x else xa_Y R x in
  let D := pcn R unit fs ((Z + 1 * (D0 - 0)) / (Z ^ 2 + 1) + 0) in
  getcoef R unit (os mx rx acc) (dl_x R unit s) = Z /\ getdict R unit fs (dl_d R unit s) = D /\
  dl_it R unit s = [(0%nat, if acc then Js 1 D (xa_Y R x) else match xa_obj R x with Some v => v | None => 0 end)].
Proof.
  intros mx rx acc D0 Y0 s E. cbv zeta. unfold dl_solve in E. cbn [dl_loop ss dl_x dl_d dl_j dl_it xsolve setcoef getcoef dsolve os xmax dmax returnx da_loop da_setcoef] in E.
  unfold da_iter in E. cbn [da_Z drhof fs dsol drelax dsum ddual da_rho da_Y da_U da_X da_k fftZ zsf option_map nostop setdict] in E.
  injection E as <-. cbn [dl_x dl_d dl_it getcoef getdict setdict xa_setdict xa_X xa_Y os returnx]. split; [destruct rx; reflexivity | ].
  split; [reflexivity | ]. cbn [app]. f_equal. f_equal. unfold objfun, evaluate. cbn [accurate os]. destruct acc; [ | reflexivity].
  cbn [var_of xa_Y getdict_full da_Y fftD dfid lmbda l1 fs]. unfold Js. rewrite (Rmult_1_l (Rabs _)). reflexivity.
Qed.

Lemma clip1 : forall v, 1 <= v -> pcn R unit fs v = 1.
Proof. intros v H. cbn. rewrite Rmin_left by lra. apply Rmax_right. lra. Qed.

(** The record is not the objective of the returned values: with ReturnX even if AccurateDFid is set; with coefficient weights (the weighted
    objective) even if AccurateDFid is set; and without AccurateDFid because the dictionary has changed. *)
Theorem C50_objective_refuted :
  (exists s (v : R), dl_solve R unit fs (os 1 true true) nostop nostop (fun _ _ _ => false) 1 (ss 1 0) = Some s /\ dl_it R unit s = [(0%nat, v)] /\
    v <> Js 1 (getdict R unit fs (dl_d R unit s)) (getcoef R unit (os 1 true true) (dl_x R unit s))) /\
  (exists s v, dl_solve R unit fs (os 2 false true) nostop nostop (fun _ _ _ => false) 1 (ss 1 0) = Some s /\ dl_it R unit s = [(0%nat, v)] /\
    v <> Js 2 (getdict R unit fs (dl_d R unit s)) (getcoef R unit (os 2 false true) (dl_x R unit s))) /\
  (exists s v, dl_solve R unit fs (os 1 false false) nostop nostop (fun _ _ _ => false) 1 (ss (1 / 2) 1) = Some s /\ dl_it R unit s = [(0%nat, v)] /\
    v <> Js 2 (getdict R unit fs (dl_d R unit s)) (getcoef R unit (os 1 false false) (dl_x R unit s))).
Proof.
  assert (Ex : forall mx rx acc D0 Y0, exists s, dl_solve R unit fs (os mx rx acc) nostop nostop (fun _ _ _ => false) 1 (ss D0 Y0) = Some s) by (intros; eexists; reflexivity).
  split; [ | split].
  - destruct (Ex 1%nat true true 1 0) as (s & E). exists s. eexists. split; [exact E | ].
    destruct (run_ss _ _ _ _ _ s E) as (H1 & H2 & H3). cbv zeta in *. split; [exact H3 | ]. rewrite H1, H2. cbn [xa_loop nostop].
    unfold xa_iter. cbn [xrho fs xa_X xa_Y xsol xrelax xprox xa_rho xa_Df xa_DSf xa_U].
    rewrite clip1 by lra. rewrite (Rmax_left 0) by lra. unfold Js. rewrite Rabs_R0. rewrite Rabs_right by lra. lra.
  - destruct (Ex 2%nat false true 1 0) as (s & E). exists s. eexists. split; [exact E | ].
    destruct (run_ss _ _ _ _ _ s E) as (H1 & H2 & H3). cbv zeta in *. split; [exact H3 | ]. rewrite H1, H2. cbn [xa_loop nostop].
    unfold xa_iter. cbn [xrho fs xa_X xa_Y xsol xrelax xprox xa_rho xa_Df xa_DSf xa_U xdual].
    rewrite (Rmax_left 0 ((1 + 1 * (0 - 0)) / (1 ^ 2 + 1) + 0 - 1 / 2 / 1)) by lra.
    set (y := Rmax 0 _). assert (Hy : y = 1 / 4) by (unfold y; rewrite Rmax_right by lra; lra).
    rewrite Hy. rewrite clip1 by lra. unfold Js. rewrite Rabs_right by lra. lra.
  - destruct (Ex 1%nat false false (1 / 2) 1) as (s & E). exists s. eexists. split; [exact E | ].
    destruct (run_ss _ _ _ _ _ s E) as (H1 & H2 & H3). cbv zeta in *. split; [exact H3 | ]. rewrite H1, H2. cbn [xa_loop nostop].
    unfold xa_iter. cbn [xrho fs xa_X xa_Y xa_obj xsol xrelax xprox xa_rho xa_Df xa_DSf xa_U xdual fevalx gevaly os dfid lmbda l1w].
    set (y := Rmax 0 _). assert (Hy : y = 7 / 10) by (unfold y; rewrite Rmax_right by lra; lra).
    rewrite Hy. set (D := pcn R unit fs _). assert (HD : D = 120 / 149) by (unfold D; cbn [pcn fs]; rewrite Rmin_right by lra; rewrite Rmax_right by lra; lra).
    rewrite HD. unfold Js. rewrite Rabs_right by lra. lra.
Qed.
Print Assumptions C50_objective_refuted.
