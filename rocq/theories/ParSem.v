(** What the phases of the parallel solver compute. *)
Require Import Reals List Arith Bool Lia Lra FunctionalExtensionality.
Require Import Verif.RVec Verif.ProxModel Verif.ProxProofs Verif.InterModel Verif.InterProofs Verif.ParModel Verif.ParProofs Verif.ParSpec.
Import ListNotations.
Local Open Scope nat_scope.

Lemma inb_iff : forall l dst (b : bool), (In l dst <-> b = true) -> inb l dst = b.
Proof.
  intros l dst b H. destruct (inb l dst) eqn:E; destruct b; try reflexivity.
  - apply inb_in in E. apply H in E. discriminate.
  - assert (In l dst) by (apply H; reflexivity). apply inb_in in H0. congruence.
Qed.
Lemma inb_fsl_F : forall c a i a' f p, inb (F a' f p) (fsl c a i) = farr_eqb a' a && (ing c i f && (p <? npix c)).
Proof.
  intros c a i a' f p. apply inb_iff. rewrite in_fsl. rewrite !andb_true_iff, Nat.ltb_lt. split.
  - intros (f' & p' & E & Hf & Hp). injection E as -> -> ->. split; [destruct (farr_eqb_spec a a); congruence | tauto].
  - intros (Ha & Hf & Hp). destruct (farr_eqb_spec a' a); [subst | discriminate]. exists f, p. tauto.
Qed.
Lemma inb_gsl_G : forall c a i a' j p, inb (G a' j p) (gsl c a i) = garr_eqb a' a && (Nat.eqb j i && (p <? npix c)).
Proof.
  intros c a i a' j p. apply inb_iff. rewrite in_gsl. rewrite !andb_true_iff, Nat.ltb_lt, Nat.eqb_eq. split.
  - intros (p' & E & Hp). injection E as -> -> ->. split; [destruct (garr_eqb_spec a a); congruence | tauto].
  - intros (Ha & Hf & Hp). destruct (garr_eqb_spec a' a); [subst | discriminate]. exists p. tauto.
Qed.
Lemma inb_fsl_other : forall c a i l, (forall a f p, l <> F a f p) -> inb l (fsl c a i) = false.
Proof.
  intros c a i l H. apply inb_iff. rewrite in_fsl. split; [ | discriminate]. intros (f & p & E & _). exfalso. apply (H a f p E).
Qed.
Lemma inb_gsl_other : forall c a i l, (forall a j p, l <> G a j p) -> inb l (gsl c a i) = false.
Proof.
  intros c a i l H. apply inb_iff. rewrite in_gsl. split; [ | discriminate]. intros (p & E & _). exfalso. apply (H a i p E).
Qed.

Lemma inb_fsl_G : forall c a i a' j p, inb (G a' j p) (fsl c a i) = false.
Proof. intros. apply inb_fsl_other. intros; discriminate. Qed.
Lemma inb_fsl_B : forall c a i p, inb (B p) (fsl c a i) = false.
Proof. intros. apply inb_fsl_other. intros; discriminate. Qed.
Lemma inb_fsl_R : forall c a i a' j, inb (Res a' j) (fsl c a i) = false.
Proof. intros. apply inb_fsl_other. intros; discriminate. Qed.
Lemma inb_gsl_F : forall c a i a' f p, inb (F a' f p) (gsl c a i) = false.
Proof. intros. apply inb_gsl_other. intros; discriminate. Qed.
Lemma inb_gsl_B : forall c a i p, inb (B p) (gsl c a i) = false.
Proof. intros. apply inb_gsl_other. intros; discriminate. Qed.
Lemma inb_gsl_R : forall c a i a' j, inb (Res a' j) (gsl c a i) = false.
Proof. intros. apply inb_gsl_other. intros; discriminate. Qed.

(** Meaning of a program up to private memory. *)
Definition sem (p : list pact) (S : pmem -> pmem) : Prop :=
  (forall m, meq (exec p m) (S m)) /\ (forall m m', meq m m' -> meq (S m) (S m')).

Lemma sem_app : forall p q S T, sem p S -> sem q T -> sem (p ++ q) (fun m => T (S m)).
Proof.
  intros p q S T [P1 P2] [Q1 Q2]. split.
  - intros m. rewrite exec_app. apply (meq_trans _ (T (exec p m))); [apply Q1 | apply Q2, P1].
  - intros m m' H. apply Q2, P2, H.
Qed.
Lemma sem_nil : sem [] (fun m => m).
Proof. split; [intros m; apply meq_refl | intros m m' H; exact H]. Qed.
Lemma sem_assign : forall i dst e, tmpfree e -> Forall (fun l => is_tmp l = false) dst ->
  sem (assign i dst e) (stm (fun l => inb l dst) e).
Proof. intros i dst e He Hd. split; [intros m; apply exec_assign; assumption | intros m m' H; apply stm_meq; assumption]. Qed.

Lemma fsl_notmp : forall c a i, Forall (fun l => is_tmp l = false) (fsl c a i).
Proof. intros c a i. apply Forall_forall. intros l Hl. apply in_fsl in Hl. destruct Hl as (f & p & -> & _). reflexivity. Qed.
Lemma gsl_notmp : forall c a i, Forall (fun l => is_tmp l = false) (gsl c a i).
Proof. intros c a i. apply Forall_forall. intros l Hl. apply in_gsl in Hl. destruct Hl as (p & -> & _). reflexivity. Qed.

Lemma sem_F : forall c i a h, (forall m m' f p, meq m m' -> h m f p = h m' f p) ->
  sem (assign i (fsl c a i) (eF h)) (stm (fun l => inb l (fsl c a i)) (eF h)).
Proof.
  intros c i a h H. apply sem_assign; [ | apply fsl_notmp]. intros m m' l Hm. unfold eF. destruct l; try reflexivity. apply H. exact Hm.
Qed.
Lemma sem_G : forall c i a h, (forall m m' p, meq m m' -> h m p = h m' p) ->
  sem (assign i (gsl c a i) (eG h)) (stm (fun l => inb l (gsl c a i)) (eG h)).
Proof.
  intros c i a h H. apply sem_assign; [ | apply gsl_notmp]. intros m m' l Hm. unfold eG. destruct l; try reflexivity. apply H. exact Hm.
Qed.

Lemma yu0_ext : forall c i m m', (forall p, m (G AY0 i p) = m' (G AY0 i p)) -> (forall p, m (G AU0 i p) = m' (G AU0 i p)) ->
  yu0 c i m = yu0 c i m'.
Proof. intros c i m m' H1 H2. unfold yu0. apply functional_extensionality. intros p. rewrite H1, H2. reflexivity. Qed.
Lemma yu1_ext : forall c i m m', (forall f p, m (F AY1 f p) = m' (F AY1 f p)) -> (forall f p, m (F AU1 f p) = m' (F AU1 f p)) ->
  yu1 c i m = yu1 c i m'.
Proof.
  intros c i m m' H1 H2. unfold yu1. apply functional_extensionality. intros f. apply functional_extensionality. intros p.
  rewrite H1, H2. reflexivity.
Qed.
Lemma yu0_meq : forall c i m m', meq m m' -> yu0 c i m = yu0 c i m'.
Proof. intros c i m m' H. apply yu0_ext; intros p; apply H; reflexivity. Qed.
Lemma yu1_meq : forall c i m m', meq m m' -> yu1 c i m = yu1 c i m'.
Proof. intros c i m m' H. apply yu1_ext; intros f p; apply H; reflexivity. Qed.

Lemma ing_false_0 : forall c i f, (ing c i f && true) = ing c i f. Proof. intros. apply andb_true_r. Qed.

Ltac inb_simpl :=
  repeat (rewrite inb_fsl_F || rewrite inb_gsl_G || rewrite inb_fsl_G || rewrite inb_fsl_B || rewrite inb_fsl_R || rewrite inb_gsl_F || rewrite inb_gsl_B || rewrite inb_gsl_R).

Ltac meq_tac H := rewrite ?(H (F _ _ _) eq_refl), ?(H (G _ _ _) eq_refl), ?(H (B _) eq_refl); reflexivity.

(** The x step and relaxation of one group. *)
Definition ini (c : params) (i : nat) (m : pmem) : pmem := fun l =>
  let x := xs c i (yu0 c i m) (yu1 c i m) in
  let dx := dxs c i (yu0 c i m) (yu1 c i m) in
  match l with
  | F AX f p => if ing c i f && (p <? npix c) then (rlx c * x f p + (1 - rlx c) * m (F AY1 f p))%R else m l
  | F AXnr f p => if ing c i f && (p <? npix c) then x f p else m l
  | G ADX j p => if Nat.eqb j i && (p <? npix c) then (rlx c * dx p + (1 - rlx c) * m (G AY0 j p))%R else m l
  | G ADXnr j p => if Nat.eqb j i && (p <? npix c) then dx p else m l
  | _ => m l
  end.

Lemma sem_xstep : forall c i, sem (par_xstep c i)
  (fun m l => match l with
   | F AX f p => if ing c i f && (p <? npix c) then xs c i (yu0 c i m) (yu1 c i m) f p else m l
   | G ADX j p => if Nat.eqb j i && (p <? npix c) then dxs c i (yu0 c i m) (yu1 c i m) p else m l
   | _ => m l end).
Proof.
  intros c i. unfold par_xstep.
  pose proof (sem_app _ _ _ _
    (sem_F c i AX (fun m => xs c i (yu0 c i m) (yu1 c i m)) ltac:(intros; cbv beta; rewrite (yu0_meq c i m m'), (yu1_meq c i m m') by assumption; reflexivity))
    (sem_G c i ADX (fun m => dxs c i (yu0 c i m) (yu1 c i m)) ltac:(intros; cbv beta; rewrite (yu0_meq c i m m'), (yu1_meq c i m m') by assumption; reflexivity))) as [S1 S2].
  assert (E : forall m l, is_tmp l = false ->
    stm (fun l => inb l (gsl c ADX i)) (eG (fun m => dxs c i (yu0 c i m) (yu1 c i m)))
      (stm (fun l => inb l (fsl c AX i)) (eF (fun m => xs c i (yu0 c i m) (yu1 c i m))) m) l =
    match l with
    | F AX f p => if ing c i f && (p <? npix c) then xs c i (yu0 c i m) (yu1 c i m) f p else m l
    | G ADX j p => if Nat.eqb j i && (p <? npix c) then dxs c i (yu0 c i m) (yu1 c i m) p else m l
    | _ => m l end).
  { intros m l Hl. unfold stm at 1.
    set (m1 := stm (fun l => inb l (fsl c AX i)) (eF (fun m => xs c i (yu0 c i m) (yu1 c i m))) m).
    assert (M0 : yu0 c i m1 = yu0 c i m).
    { apply yu0_ext; intros p; unfold m1, stm; inb_simpl; reflexivity. }
    assert (M1 : yu1 c i m1 = yu1 c i m).
    { apply yu1_ext; intros f p; unfold m1, stm; inb_simpl; reflexivity. }
    destruct l as [a f p|a j p|p|a j|j l]; try discriminate; inb_simpl; cbv iota; unfold eG; rewrite ?M0, ?M1; unfold m1, stm; inb_simpl;
      try (destruct a); reflexivity. }
  split.
  - intros m l Hl. rewrite (S1 m l Hl). apply E. exact Hl.
  - intros m m' H l Hl. rewrite <- !E by exact Hl. apply S2; assumption.
Qed.

Lemma sem_ext : forall p S T, sem p S -> (forall m, meq (S m) (T m)) -> sem p T.
Proof.
  intros p S T [S1 S2] H. split.
  - intros m. apply (meq_trans _ (S m)); [apply S1 | apply H].
  - intros m m' E. apply (meq_trans _ (S m)); [apply meq_sym, H | ]. apply (meq_trans _ (S m')); [apply S2, E | apply H].
Qed.

Lemma sem_relax : forall c i, sem (par_relax_AX c i)
  (fun m l => match l with
   | F AX f p => if ing c i f && (p <? npix c) then (rlx c * m (F AX f p) + (1 - rlx c) * m (F AY1 f p))%R else m l
   | F AXnr f p => if ing c i f && (p <? npix c) then m (F AX f p) else m l
   | G ADX j p => if Nat.eqb j i && (p <? npix c) then (rlx c * m (G ADX i p) + (1 - rlx c) * m (G AY0 i p))%R else m l
   | G ADXnr j p => if Nat.eqb j i && (p <? npix c) then m (G ADX i p) else m l
   | _ => m l end).
Proof.
  intros c i. unfold par_relax_AX.
  assert (A : sem (assign i (fsl c AXnr i) (eF (fun m f p => m (F AX f p))) ++ assign i (gsl c ADXnr i) (eG (fun m p => m (G ADX i p))))
    (fun m l => match l with
     | F AXnr f p => if ing c i f && (p <? npix c) then m (F AX f p) else m l
     | G ADXnr j p => if Nat.eqb j i && (p <? npix c) then m (G ADX i p) else m l
     | _ => m l end)).
  { eapply sem_ext; [apply sem_app; [apply sem_F | apply sem_G] | ].
    - intros m m' f p H. apply H. reflexivity.
    - intros m m' p H. apply H. reflexivity.
    - intros m l Hl. cbv beta. unfold stm at 1.
      destruct l as [a f p|a j p|p|a j|j l]; try discriminate; inb_simpl; unfold eG, stm; inb_simpl; try (destruct a); try reflexivity. }
  rewrite app_assoc. destruct (Req_EM_T (rlx c) 1) as [E|E].
  - rewrite app_nil_r. eapply sem_ext; [exact A | ]. intros m l Hl. cbv beta. rewrite E.
    destruct l as [a f p|a j p|p|a j|j l]; try discriminate; try reflexivity; destruct a; try reflexivity.
    + destruct (ing c i f && (p <? npix c)); [ring | reflexivity].
    + destruct (Nat.eqb_spec j i) as [->|Hj]; [ | reflexivity]. destruct (p <? npix c); cbn [andb]; [ring | reflexivity].
  - eapply sem_ext; [apply sem_app; [exact A | apply sem_app; [apply sem_F | apply sem_G]] | ].
    + intros m m' f p H. meq_tac H.
    + intros m m' p H. meq_tac H.
    + intros m l Hl. cbv beta. unfold stm at 1.
      destruct l as [a f p|a j p|p|a j|j l]; try discriminate; inb_simpl; unfold eG, eF, stm; inb_simpl; try (destruct a); try reflexivity.
Qed.

Lemma sem_initial : forall c i, sem (par_initial_stepgrp c i) (ini c i).
Proof.
  intros c i. unfold par_initial_stepgrp. eapply sem_ext; [apply sem_app; [apply sem_xstep | apply sem_relax] | ].
  intros m l Hl. cbv beta. unfold ini.
  destruct l as [a f p|a j p|p|a j|j l]; try discriminate; try reflexivity; destruct a; try reflexivity.
  - destruct (ing c i f && (p <? npix c)) eqn:E; reflexivity.
  - destruct (ing c i f && (p <? npix c)) eqn:E; reflexivity.
  - destruct (Nat.eqb_spec j i) as [->|Hj]; [ | reflexivity]. rewrite Nat.eqb_refl. destruct (p <? npix c) eqn:E; cbn [andb]; reflexivity.
  - destruct (Nat.eqb_spec j i) as [->|Hj]; [ | reflexivity]. rewrite Nat.eqb_refl. destruct (p <? npix c) eqn:E; cbn [andb]; reflexivity.
Qed.

(** The y and u steps of one group. *)
Definition y0new (c : params) (m : pmem) (i p : nat) : R := (1 / rho c * sw c p + m (G ADX i p) + m (G AU0 i p) + m (B p))%R.
Definition y1new (c : params) (m : pmem) (f p : nat) : R := y1val c f p (m (F AX f p) + 1 / alpha c * m (F AU1 f p))%R.
Definition fin (c : params) (i : nat) (m : pmem) : pmem := fun l =>
  match l with
  | G AY0 j p => if Nat.eqb j i && (p <? npix c) then y0new c m j p else m l
  | G AU0 j p => if Nat.eqb j i && (p <? npix c) then (m l + (m (G ADX j p) - y0new c m j p))%R else m l
  | F AY1 f p => if ing c i f && (p <? npix c) then y1new c m f p else m l
  | F AU1 f p => if ing c i f && (p <? npix c) then (m l + alpha c * (m (F AX f p) - y1new c m f p))%R else m l
  | _ => m l
  end.

Lemma sem_final : forall c i, sem (par_final_stepgrp c i) (fin c i).
Proof.
  intros c i. unfold par_final_stepgrp, par_y0bstep, par_y1step, par_u0step, par_u1step.
  eapply sem_ext; [apply sem_app; [apply sem_G | apply sem_app; [apply sem_F | apply sem_app; [apply sem_G | apply sem_F]]] | ].
  - intros m m' p H. meq_tac H.
  - intros m m' f p H. meq_tac H.
  - intros m m' p H. meq_tac H.
  - intros m m' f p H. meq_tac H.
  - intros m l Hl. cbv beta. unfold fin, y0new, y1new.
    destruct l as [a f p|a j p|p|a j|j l]; try discriminate; unfold stm; inb_simpl; try reflexivity; destruct a; unfold eG, eF; inb_simpl; cbn [farr_eqb garr_eqb andb];
      try reflexivity.
    + destruct (ing c i f && (p <? npix c)) eqn:E; [ | reflexivity]. reflexivity.
    + destruct (Nat.eqb_spec j i) as [->|Hj]; [ | reflexivity]. destruct (p <? npix c) eqn:E; cbn [andb]; reflexivity.
    + destruct (Nat.eqb_spec j i) as [->|Hj]; [ | reflexivity]. rewrite Nat.eqb_refl. destruct (p <? npix c) eqn:E; cbn [andb]; reflexivity.
Qed.

(** Residuals: only the components are written. *)
Lemma sem_resid1 : forall c i a, sem (assign i [Res a i] (fun m _ => resid c i a m))
  (fun m l => match l with Res b j => if rarr_eqb b a && Nat.eqb j i then resid c i a m else m l | _ => m l end).
Proof.
  intros c i a.
  assert (T : forall m m', meq m m' -> resid c i a m = resid c i a m').
  { intros m m' H.
    assert (EG : forall a j p, m (G a j p) = m' (G a j p)) by (intros; apply H; reflexivity).
    assert (EF : forall a f p, m (F a f p) = m' (F a f p)) by (intros; apply H; reflexivity).
    destruct a; unfold resid;
      repeat match goal with
      | |- (?x + ?y = ?x' + ?y')%R => apply f_equal2
      | |- (?x * ?y = ?x * ?y')%R => apply f_equal
      | |- sumn _ _ = sumn _ _ => apply sumn_ext; intros; rewrite ?EG; reflexivity
      | |- sumf _ _ _ = sumf _ _ _ => apply sumf_ext; intros; rewrite ?EF by assumption; reflexivity
      end. }
  eapply sem_ext; [apply sem_assign | ].
  - intros m m' l H. apply T. exact H.
  - constructor; [reflexivity | constructor].
  - intros m l Hl. unfold stm, inb. cbn [existsb]. rewrite orb_false_r.
    destruct l as [b f p|b j p|p|b j|j l]; try discriminate; try reflexivity.
Qed.
