(** Lemmas on the gradient of the online dictionary update and on the step sizes. *)
Require Import Reals List Arith ZArith Bool Lia Lra FunctionalExtensionality.
Require Import Verif.RVec Verif.Cplx Verif.CnvrepModel Verif.OnlineModel Verif.OnlineSpec.
Import ListNotations.
Local Open Scope R_scope.

Definition resid (nM : nat) (z d : nat -> Cplx.C) (s : Cplx.C) : Cplx.C := csub (csumn nM (fun m => cmul (z m) (d m))) s.
Lemma resid_add nM z d h s : resid nM z (fun m => cadd (d m) (h m)) s = cadd (resid nM z d s) (csumn nM (fun m => cmul (z m) (h m))).
Proof.
  unfold resid. rewrite (csumn_ext nM (fun m => cmul (z m) (cadd (d m) (h m))) (fun m => cadd (cmul (z m) (d m)) (cmul (z m) (h m)))) by (intros; ring).
  rewrite csumn_plus. ring.
Qed.
Lemma cabs2_add x y : cabs2 (cadd x y) = cabs2 x + 2 * re (cmul (conj x) y) + cabs2 y.
Proof. unfold cabs2, cadd, cmul, conj, re, im. simpl. ring. Qed.
Lemma re_sum n f : re (csumn n f) = sumn n (fun i => re (f i)).
Proof. reflexivity. Qed.
Lemma resid_cross nM z h r : re (cmul (conj r) (csumn nM (fun m => cmul (z m) (h m)))) = sumn nM (fun m => re (cmul (conj (cmul (conj (z m)) r)) (h m))).
Proof.
  rewrite <- csumn_scal, re_sum. apply sumn_ext. intros m _. f_equal. rewrite conj_mul, conj_conj. ring.
Qed.
Lemma resid_quad nM z d h s : cabs2 (resid nM z (fun m => cadd (d m) (h m)) s) =
  cabs2 (resid nM z d s) + 2 * sumn nM (fun m => re (cmul (conj (cmul (conj (z m)) (resid nM z d s))) (h m))) + cabs2 (resid nM z h c0).
Proof.
  rewrite resid_add, cabs2_add, resid_cross. unfold resid at 5. f_equal. f_equal. ring.
Qed.
Lemma sum_cross nM nK (q : nat -> nat -> Cplx.C) h :
  sumn nK (fun k => sumn nM (fun m => re (cmul (conj (q k m)) (h m)))) = sumn nM (fun m => re (cmul (conj (csumn nK (fun k => q k m))) (h m))).
Proof.
  rewrite sumn_swap. apply sumn_ext. intros m _. rewrite csumn_conj, <- csumn_scal_r. reflexivity.
Qed.

Lemma fidelity_gradient nC nK nM z s d :
  is_gradient nC nK nM z s d (fun c m => csumn nK (fun k => cmul (conj (z k m)) (resid nM (z k) (d c) (s c k)))).
Proof.
  intros h. unfold fidelity.
  rewrite (sumn_ext nC _ (fun c => sumn nK (fun k => cabs2 (resid nM (z k) (d c) (s c k))) +
     2 * sumn nM (fun m => re (cmul (conj (csumn nK (fun k => cmul (conj (z k m)) (resid nM (z k) (d c) (s c k))))) (h c m))) +
     sumn nK (fun k => cabs2 (resid nM (z k) (h c) c0)))).
  - rewrite !sumn_plus, sumn_scal. unfold resid. field.
  - intros c _. rewrite <- sum_cross, <- sumn_scal, <- !sumn_plus. apply sumn_ext. intros k _.
    apply (resid_quad nM (z k) (d c) (h c) (s c k)).
Qed.
Lemma fidelity1_gradient nC nK nM z s d :
  is_gradient1 nC nK nM z s d (fun m => csumn nC (fun c => csumn nK (fun k => cmul (conj (z c k m)) (resid nM (z c k) d (s c k))))).
Proof.
  intros h. unfold fidelity1. rewrite <- sum_cross.
  rewrite (sumn_ext nC _ (fun c => sumn nK (fun k => cabs2 (resid nM (z c k) d (s c k))) +
     2 * sumn nM (fun m => re (cmul (conj (csumn nK (fun k => cmul (conj (z c k m)) (resid nM (z c k) d (s c k))))) (h m))) +
     sumn nK (fun k => cabs2 (resid nM (z c k) h c0)))).
  - rewrite !sumn_plus, sumn_scal. unfold resid. field.
  - intros c _. rewrite <- sum_cross, <- sumn_scal, <- !sumn_plus. apply sumn_ext. intros k _.
    apply (resid_quad nM (z c k) d h (s c k)).
Qed.

(** The gradient is unique. *)
Lemma re_test x y : (forall h, re (cmul (conj x) h) = re (cmul (conj y) h)) -> x = y.
Proof.
  intros H. apply c_eq.
  - specialize (H c1). unfold cmul, conj, c1, re, im in H. simpl in H. unfold re. lra.
  - specialize (H (0, 1)). unfold cmul, conj, re, im in H. simpl in H. unfold im. lra.
Qed.
Lemma gradient1_unique nC nK nM z s d g g' : is_gradient1 nC nK nM z s d g -> is_gradient1 nC nK nM z s d g' -> forall m, (m < nM)%nat -> g m = g' m.
Proof.
  intros H H' m Hm. apply re_test. intros h. specialize (H (fun i => if Nat.eqb i m then h else c0)). specialize (H' (fun i => if Nat.eqb i m then h else c0)).
  cbv beta in H, H'. rewrite H in H'. clear H.
  assert (E : forall q : nat -> Cplx.C, sumn nM (fun i => re (cmul (conj (q i)) (if Nat.eqb i m then h else c0))) = re (cmul (conj (q m)) h)).
  { intros q. rewrite <- (sumn_delta nM m (fun i => re (cmul (conj (q i)) h)) Hm). apply sumn_ext. intros i _. destruct (Nat.eqb i m); [reflexivity|].
    unfold cmul, c0, re, im. simpl. ring. }
  rewrite !E in H'. lra.
Qed.
Lemma gradient_unique nC nK nM z s d g g' : is_gradient nC nK nM z s d g -> is_gradient nC nK nM z s d g' ->
  forall c m, (c < nC)%nat -> (m < nM)%nat -> g c m = g' c m.
Proof.
  intros H H' c m Hc Hm. apply re_test. intros h.
  specialize (H (fun b i => if Nat.eqb b c then if Nat.eqb i m then h else c0 else c0)). specialize (H' (fun b i => if Nat.eqb b c then if Nat.eqb i m then h else c0 else c0)).
  cbv beta in H, H'. rewrite H in H'. clear H.
  assert (E : forall q : nat -> nat -> Cplx.C, sumn nC (fun b => sumn nM (fun i => re (cmul (conj (q b i)) (if Nat.eqb b c then if Nat.eqb i m then h else c0 else c0)))) = re (cmul (conj (q c m)) h)).
  { intros q. rewrite <- (sumn_delta nC c (fun b => re (cmul (conj (q b m)) h)) Hc). apply sumn_ext. intros b _. destruct (Nat.eqb_spec b c) as [->|].
    - rewrite <- (sumn_delta nM m (fun i => re (cmul (conj (q c i)) h)) Hm). apply sumn_ext. intros i _. destruct (Nat.eqb i m); [reflexivity|].
      unfold cmul, c0, re, im. simpl. ring.
    - apply sumn_0. intros i _. unfold cmul, c0, re, im. simpl. ring. }
  rewrite !E in H'. lra.
Qed.

(** ** Broadcasting *)
Lemma bdim_same n : bdim n n = Some n.
Proof. unfold bdim. rewrite Nat.eqb_refl. reflexivity. Qed.
Lemma bdim_1l n : bdim 1 n = Some n.
Proof. unfold bdim. destruct (Nat.eqb_spec 1 n) as [<-|]; reflexivity. Qed.
Lemma bdim_1r n : bdim n 1 = Some n.
Proof. unfold bdim. destruct (Nat.eqb_spec n 1) as [->|]; [reflexivity|]. reflexivity. Qed.
Lemma bix_lt n i : (i < n)%nat -> bix n i = i.
Proof. unfold bix. destruct (Nat.eqb_spec n 1) as [->|]; [lia|reflexivity]. Qed.
Lemma bix_1 i : bix 1 i = 0%nat. Proof. reflexivity. Qed.
