(** Iterations of the parallel solver. *)
Require Import Reals List Arith Bool Lia Lra FunctionalExtensionality.
Require Import Verif.RVec Verif.ProxModel Verif.ProxProofs Verif.InterModel Verif.InterProofs Verif.ParModel Verif.ParProofs Verif.ParSpec Verif.ParSem.
Import ListNotations.
Local Open Scope nat_scope.

(** The variables held by the shared arrays. *)
Definition view (m : pmem) : st := mkSt (fun i p => m (G AY0 i p)) (fun f p => m (F AY1 f p)) (fun i p => m (G AU0 i p)) (fun f p => m (F AU1 f p)).

Section Iter.
Variable c : params.
Hypothesis Hg : groups (ngrp c) (nfilt c) (grp c).
Notation P := (npix c).

Definition steq (s s' : st) : Prop :=
  (forall i p, i < ngrp c -> p < P -> Y0 s i p = Y0 s' i p /\ U0 s i p = U0 s' i p) /\
  (forall f p, f < nfilt c -> p < P -> Y1 s f p = Y1 s' f p /\ U1 s f p = U1 s' f p).
Lemma steq_refl : forall s, steq s s.
Proof. intros s. split; intros; split; reflexivity. Qed.
Lemma steq_trans : forall a b d, steq a b -> steq b d -> steq a d.
Proof.
  intros a b d [H1 H2] [K1 K2]. split; intros.
  - destruct (H1 i p H H0), (K1 i p H H0). split; congruence.
  - destruct (H2 f p H H0), (K2 f p H H0). split; congruence.
Qed.
Lemma steq_sym : forall a b, steq a b -> steq b a.
Proof.
  intros a b [H1 H2]. split; intros; [destruct (H1 i p H H0) | destruct (H2 f p H H0)]; split; congruence.
Qed.

Definition gof (f : nat) : nat := match find (fun i => ing c i f) (seq 0 (ngrp c)) with Some i => i | None => 0 end.
Lemma gof_spec : forall f, f < nfilt c -> gof f < ngrp c /\ ing c (gof f) f = true.
Proof.
  intros f Hf. destruct (groups_exists _ _ _ Hg f Hf) as (i & Hi & Hi').
  assert (I : ing c i f = true) by (apply ing_iff; lia).
  unfold gof. rewrite (find_grp c Hg i f Hi I). tauto.
Qed.
Lemma ing_lt : forall i f, i < ngrp c -> ing c i f = true -> f < nfilt c.
Proof.
  intros i f Hi H. apply ing_iff in H. pose proof (groups_mono _ _ _ Hg (S i) (ngrp c) ltac:(lia) ltac:(lia)).
  destruct Hg as (_ & HM & _). lia.
Qed.
Lemma gof_unique : forall i f, i < ngrp c -> ing c i f = true -> gof f = i.
Proof. intros i f Hi H. unfold gof. rewrite (find_grp c Hg i f Hi H). reflexivity. Qed.
Lemma own_Ff : forall a f p, f < nfilt c -> owner c (F a f p) = Some (gof f).
Proof. intros a f p Hf. destruct (gof_spec f Hf). apply own_F; assumption. Qed.

(** Coefficient maps and products for given variables. *)
Definition a0 (s : st) (i p : nat) : R := if p <? P then (Y0 s i p - U0 s i p)%R else 0%R.
Definition a1 (s : st) (i f p : nat) : R := if ing c i f && (p <? P) then (Y1 s f p - 1 / alpha c * U1 s f p)%R else 0%R.
Definition xmap (s : st) (f p : nat) : R := xs c (gof f) (a0 s (gof f)) (a1 s (gof f)) f p.
Definition dmap (s : st) (i p : nat) : R := dxs c i (a0 s i) (a1 s i) p.

Lemma a0_steq : forall s s' i, i < ngrp c -> steq s s' -> a0 s i = a0 s' i.
Proof.
  intros s s' i Hi [H _]. apply functional_extensionality. intros p. unfold a0.
  destruct (Nat.ltb_spec p P) as [Hp|Hp]; [ | reflexivity]. destruct (H i p Hi Hp) as [-> ->]. reflexivity.
Qed.
Lemma a1_steq : forall s s' i, i < ngrp c -> steq s s' -> a1 s i = a1 s' i.
Proof.
  intros s s' i Hi [_ H]. apply functional_extensionality. intros f. apply functional_extensionality. intros p. unfold a1.
  destruct (ing c i f) eqn:Ef; [ | reflexivity]. destruct (Nat.ltb_spec p P) as [Hp|Hp]; [ | reflexivity].
  destruct (H f p (ing_lt i f Hi Ef) Hp) as [-> ->]. reflexivity.
Qed.
Lemma xmap_steq : forall s s' f p, f < nfilt c -> steq s s' -> xmap s f p = xmap s' f p.
Proof.
  intros s s' f p Hf H. unfold xmap. destruct (gof_spec f Hf) as [Hi _].
  rewrite (a0_steq s s' _ Hi H), (a1_steq s s' _ Hi H). reflexivity.
Qed.
Lemma dmap_steq : forall s s' i p, i < ngrp c -> steq s s' -> dmap s i p = dmap s' i p.
Proof. intros s s' i p Hi H. unfold dmap. rewrite (a0_steq s s' _ Hi H), (a1_steq s s' _ Hi H). reflexivity. Qed.

Definition xr (s : st) (f p : nat) : R := (rlx c * xmap s f p + (1 - rlx c) * Y1 s f p)%R.
Definition dr (s : st) (i p : nat) : R := (rlx c * dmap s i p + (1 - rlx c) * Y0 s i p)%R.
Definition b_of (s0 s : st) (p : nat) : R := (inv_off c p * sumn (ngrp c) (fun i => sw c p + rho c * (dr s0 i p + U0 s i p)))%R.

(** Update of the variables [s] with the coefficient maps computed for [s0]. *)
Definition update (s0 s : st) : st :=
  let y0 i p := (1 / rho c * sw c p + dr s0 i p + U0 s i p + b_of s0 s p)%R in
  let y1 f p := y1val c f p (xr s0 f p + 1 / alpha c * U1 s f p)%R in
  mkSt y0 y1 (fun i p => (U0 s i p + (dr s0 i p - y0 i p))%R) (fun f p => (U1 s f p + alpha c * (xr s0 f p - y1 f p))%R).
(** One iteration on the variables. *)
Definition step (s : st) : st := update s s.

Lemma step_steq : forall s s', steq s s' -> steq (step s) (step s').
Proof.
  intros s s' H. pose proof H as [H1 H2].
  assert (D : forall i p, i < ngrp c -> p < P -> dr s i p = dr s' i p).
  { intros i p Hi Hp. unfold dr. rewrite (dmap_steq s s' i p Hi H). destruct (H1 i p Hi Hp) as [-> _]. reflexivity. }
  assert (X : forall f p, f < nfilt c -> p < P -> xr s f p = xr s' f p).
  { intros f p Hf Hp. unfold xr. rewrite (xmap_steq s s' f p Hf H). destruct (H2 f p Hf Hp) as [-> _]. reflexivity. }
  assert (B' : forall p, p < P -> b_of s s p = b_of s' s' p).
  { intros p Hp. unfold b_of. f_equal. apply sumn_ext. intros i Hi. rewrite (D i p Hi Hp). destruct (H1 i p Hi Hp) as [_ ->]. reflexivity. }
  split.
  - intros i p Hi Hp. cbn [step update Y0 U0]. rewrite (D i p Hi Hp), (B' p Hp). destruct (H1 i p Hi Hp) as [_ ->]. split; reflexivity.
  - intros f p Hf Hp. cbn [step update Y1 U1]. rewrite (X f p Hf Hp). destruct (H2 f p Hf Hp) as [_ ->]. split; reflexivity.
Qed.

(** The coefficient arrays hold the maps for the current variables. *)
Definition maps_of (s : st) (m : pmem) : Prop :=
  (forall f p, f < nfilt c -> p < P -> m (F AX f p) = xr s f p /\ m (F AXnr f p) = xmap s f p) /\
  (forall i p, i < ngrp c -> p < P -> m (G ADX i p) = dr s i p /\ m (G ADXnr i p) = dmap s i p).
Definition ahead (m : pmem) : Prop := maps_of (view m) m.

Lemma maps_steq : forall s s' m, steq s s' -> maps_of s m -> maps_of s' m.
Proof.
  intros s s' m H [M1 M2]. pose proof H as [H1 H2]. split.
  - intros f p Hf Hp. destruct (M1 f p Hf Hp) as [-> ->]. unfold xr. rewrite (xmap_steq s s' f p Hf H). destruct (H2 f p Hf Hp) as [-> _].
    split; reflexivity.
  - intros i p Hi Hp. destruct (M2 i p Hi Hp) as [-> ->]. unfold dr. rewrite (dmap_steq s s' i p Hi H). destruct (H1 i p Hi Hp) as [-> _].
    split; reflexivity.
Qed.

Lemma phase_ini : phase c (par_initial_stepgrp c). Proof. left. reflexivity. Qed.
Lemma phase_fin : phase c (par_final_stepgrp c). Proof. right. left. reflexivity. Qed.
Lemma phase_step : phase c (par_stepgrp c). Proof. right. right. left. reflexivity. Qed.
Lemma phase_res : phase c (par_compute_residuals c). Proof. right. right. right. reflexivity. Qed.

Lemma view_yu0 : forall i m, yu0 c i m = a0 (view m) i. Proof. reflexivity. Qed.
Lemma view_yu1 : forall i m, yu1 c i m = a1 (view m) i. Proof. reflexivity. Qed.

(** Initial phase. *)
Lemma dist_ini : forall m, let m' := distribute c None (par_initial_stepgrp c) m in
  view m' = view m /\ maps_of (view m) m' /\ (forall p, m' (B p) = m (B p)) /\
  (forall f p, m' (F AY1old f p) = m (F AY1old f p)) /\ (forall i p, m' (G AY0old i p) = m (G AY0old i p)).
Proof.
  intros m. cbv zeta.
  assert (K : forall l, is_tmp l = false ->
    distribute c None (par_initial_stepgrp c) m l = match owner c l with Some i => ini c i m l | None => m l end).
  { intros l Hl. rewrite (distribute_at c Hg _ m l phase_ini). destruct (owner c l) as [i|]; [ | reflexivity].
    apply (proj1 (sem_initial c i)). exact Hl. }
  assert (V : forall l, is_tmp l = false -> (forall i, ini c i m l = m l) -> distribute c None (par_initial_stepgrp c) m l = m l).
  { intros l Hl Hv. rewrite K by exact Hl. destruct (owner c l); [apply Hv | reflexivity]. }
  split; [ | split; [ | split; [ | split]]].
  - unfold view. f_equal; apply functional_extensionality; intros i; apply functional_extensionality; intros p; apply V; reflexivity.
  - split.
    + intros f p Hf Hp. destruct (gof_spec f Hf) as [Hi Hin].
      rewrite !K by reflexivity. rewrite !own_Ff by exact Hf. unfold ini. rewrite Hin.
      replace (p <? P) with true by (symmetry; apply Nat.ltb_lt; exact Hp). cbn [andb].
      rewrite view_yu0, view_yu1. split; reflexivity.
    + intros i p Hi Hp. rewrite !K by reflexivity. rewrite !(own_G c i) by exact Hi. unfold ini. rewrite Nat.eqb_refl.
      replace (p <? P) with true by (symmetry; apply Nat.ltb_lt; exact Hp). cbn [andb].
      rewrite view_yu0, view_yu1. split; reflexivity.
  - intros p. apply V; reflexivity.
  - intros f p. apply V; reflexivity.
  - intros i p. apply V; reflexivity.
Qed.

(** Final phase after y0astep. *)
Lemma dist_fin : forall s m, maps_of s m ->
  let m' := distribute c None (par_final_stepgrp c) (y0astep c m) in
  steq (view m') (update s (view m)) /\ maps_of s m' /\
  (forall f p, m' (F AY1old f p) = m (F AY1old f p)) /\ (forall i p, m' (G AY0old i p) = m (G AY0old i p)).
Proof.
  intros s m [M1 M2]. cbv zeta. set (m0 := y0astep c m).
  assert (K : forall l, is_tmp l = false ->
    distribute c None (par_final_stepgrp c) m0 l = match owner c l with Some i => fin c i m0 l | None => m0 l end).
  { intros l Hl. rewrite (distribute_at c Hg _ m0 l phase_fin). destruct (owner c l) as [i|]; [ | reflexivity].
    apply (proj1 (sem_final c i)). exact Hl. }
  assert (V : forall l, is_tmp l = false -> (forall i, fin c i m0 l = m0 l) -> distribute c None (par_final_stepgrp c) m0 l = m0 l).
  { intros l Hl Hv. rewrite K by exact Hl. destruct (owner c l); [apply Hv | reflexivity]. }
  assert (B0 : forall p, p < P -> m0 (B p) = b_of s (view m) p).
  { intros p Hp. unfold m0, y0astep. replace (p <? P) with true by (symmetry; apply Nat.ltb_lt; exact Hp).
    unfold b_of. f_equal. apply sumn_ext. intros i Hi. destruct (M2 i p Hi Hp) as [-> _]. reflexivity. }
  assert (Lp : forall p, p < P -> (p <? P) = true) by (intros p Hp; apply Nat.ltb_lt; exact Hp).
  split; [ | split; [ | split]].
  - split.
    + intros i p Hi Hp. cbn [view Y0 U0]. rewrite !K by reflexivity. rewrite !(own_G c i) by exact Hi.
      unfold fin. rewrite Nat.eqb_refl, (Lp p Hp). cbn [andb]. unfold y0new. rewrite (B0 p Hp).
      change (m0 (G ADX i p)) with (m (G ADX i p)). change (m0 (G AU0 i p)) with (m (G AU0 i p)).
      destruct (M2 i p Hi Hp) as [-> _].
      cbn [step update Y0 U0]. split; reflexivity.
    + intros f p Hf Hp. destruct (gof_spec f Hf) as [Hi Hin]. cbn [view Y1 U1]. rewrite !K by reflexivity. rewrite !own_Ff by exact Hf.
      unfold fin. rewrite Hin, (Lp p Hp). cbn [andb]. unfold y1new.
      change (m0 (F AX f p)) with (m (F AX f p)). change (m0 (F AU1 f p)) with (m (F AU1 f p)).
      destruct (M1 f p Hf Hp) as [-> _].
      cbn [step update Y1 U1]. split; reflexivity.
  - split.
    + intros f p Hf Hp. rewrite !V by reflexivity. apply (M1 f p Hf Hp).
    + intros i p Hi Hp. rewrite !V by reflexivity. apply (M2 i p Hi Hp).
  - intros f p. rewrite V by reflexivity. reflexivity.
  - intros i p. rewrite V by reflexivity. reflexivity.
Qed.

(** par_stepgrp is the final phase followed by the initial phase. *)
Lemma dist_step : forall m, distribute c None (par_stepgrp c) m =
  distribute c None (par_initial_stepgrp c) (distribute c None (par_final_stepgrp c) m).
Proof.
  intros m. apply functional_extensionality. intros l.
  rewrite (distribute_at c Hg _ m l phase_step), (distribute_at c Hg _ _ l phase_ini).
  destruct (owner c l) as [i|] eqn:Eo.
  - unfold par_stepgrp. rewrite exec_app.
    apply (exec_agree (owner c) i (par_initial_stepgrp c i)); [ | | left; exact Eo].
    + apply (initial_local c Hg). apply owner_lt in Eo. exact Eo.
    + intros l' [E|E]; rewrite (distribute_at c Hg _ m l' phase_fin), E; [reflexivity | ].
      apply (exec_other (owner c) i); [ | congruence]. apply (final_local c Hg). apply owner_lt in Eo. exact Eo.
  - rewrite (distribute_at c Hg _ m l phase_fin), Eo. reflexivity.
Qed.

(** Residual components. *)
Lemma sem_residuals : forall i, sem (par_compute_residuals c i)
  (fun m l => match l with Res a j => if Nat.eqb j i then resid c i a m else m l | _ => m l end).
Proof.
  intros i. unfold par_compute_residuals. cbn [flat_map]. rewrite app_nil_r.
  eapply sem_ext; [do 6 (apply sem_app; [apply sem_resid1 | ]); apply sem_resid1 | ].
  intros m l Hl. cbv beta. destruct l as [a f p|a j p|p|a j|j l]; try discriminate; try reflexivity.
  destruct (Nat.eqb_spec j i) as [->|Hj].
  - destruct a; cbn [rarr_eqb andb]; rewrite ?Nat.eqb_refl; reflexivity.
  - destruct a; cbn [rarr_eqb andb]; reflexivity.
Qed.

Lemma dist_res : forall m, let m' := distribute c None (par_compute_residuals c) m in
  (forall a f p, m' (F a f p) = m (F a f p)) /\ (forall a i p, m' (G a i p) = m (G a i p)) /\
  (forall a i, i < ngrp c -> m' (Res a i) = resid c i a m).
Proof.
  intros m. cbv zeta.
  assert (K : forall l, is_tmp l = false ->
    distribute c None (par_compute_residuals c) m l =
    match owner c l with Some i => match l with Res a j => if Nat.eqb j i then resid c i a m else m l | _ => m l end | None => m l end).
  { intros l Hl. rewrite (distribute_at c Hg _ m l phase_res). destruct (owner c l) as [i|]; [ | reflexivity].
    apply (proj1 (sem_residuals i)). exact Hl. }
  split; [ | split].
  - intros a f p. rewrite K by reflexivity. destruct (owner c (F a f p)); reflexivity.
  - intros a i p. rewrite K by reflexivity. destruct (owner c (G a i p)); reflexivity.
  - intros a i Hi. rewrite K by reflexivity. rewrite (own_Res c i a Hi), Nat.eqb_refl. reflexivity.
Qed.
End Iter.
