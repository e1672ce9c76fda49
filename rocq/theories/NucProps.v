(** C60: the nuclear norm and its proximal operator. *)
Require Import Reals Lra Lia Arith.
Require Import Verif.RVec Verif.NucModel Verif.NucSpec Verif.NucProofs.
Local Open Scope R_scope.

(** norm_nuclear is the dual norm of the operator norm, whatever decomposition np.linalg.svd returns. *)
Theorem C60_norm_nuclear : forall svd M N X, is_svd M N X (svd X) -> is_nuclear M N X (norm_nuclear svd M N X).
Proof. exact norm_nuclear_spec. Qed.

(** The returned matrix is the only minimiser, and the returned singular values sum to its nuclear norm. *)
Theorem C60_prox_nuclear : forall svd M N V alpha, 0 <= alpha -> is_svd M N V (svd V) ->
  let P := fst (prox_nuclear svd M N V alpha) in
  exists vP, is_nuclear M N P vP /\ vP = sumn (Nat.min M N) (snd (prox_nuclear svd M N V alpha)) /\
  forall X vX, is_nuclear M N X vX ->
    / 2 * fnrm2 M N (fun i j => P i j - V i j) + alpha * vP <= / 2 * fnrm2 M N (fun i j => X i j - V i j) + alpha * vX /\
    (/ 2 * fnrm2 M N (fun i j => X i j - V i j) + alpha * vX <= / 2 * fnrm2 M N (fun i j => P i j - V i j) + alpha * vP ->
     forall i j, (i < M)%nat -> (j < N)%nat -> X i j = P i j).
Proof.
  intros svd M N V alpha Ha Hs P. destruct (prox_nuclear_sub svd M N V alpha Ha Hs) as [H1 H2]. eexists. split; [exact H1|]. split; [reflexivity|].
  intros X vX HX. specialize (H2 X vX HX). fold P in H2. rewrite (fsub_expand M N X V P). pose proof (fnrm2_nonneg M N (fun i j => X i j - P i j)).
  split; [lra|]. intros L i j Hi Hj. assert (Z : fnrm2 M N (fun i j => X i j - P i j) = 0) by lra.
  pose proof (fnrm2_0 M N _ Z i j Hi Hj) as E. cbv beta in E. lra.
Qed.

(** A decomposition of the 2 x 2 matrix [[0, -3], [1, 0]]: singular values 3 and 1, shrunk to 1 and 0 by alpha = 2. *)
Definition exU : mat := fun i j => match i, j with O, O => 1 | 1%nat, 1%nat => 1 | _, _ => 0 end.
Definition exs (k : nat) : R := match k with O => 3 | _ => 1 end.
Definition exW : mat := fun i j => match i, j with O, 1%nat => -1 | 1%nat, O => 1 | _, _ => 0 end.
Definition exX : mat := fun i j => match i, j with O, 1%nat => -3 | 1%nat, O => 1 | _, _ => 0 end.
Example ex_svd : is_svd 2 2 exX (exU, exs, exW).
Proof.
  unfold is_svd. change (Nat.min 2 2) with 2%nat. split; [|split; [|split]].
  - intros [|[|a]] [|[|b]] Ha Hb; try lia; unfold exU, delta; simpl; ring.
  - intros [|[|a]] [|[|b]] Ha Hb; try lia; unfold exW, delta; simpl; ring.
  - intros [|k] _; unfold exs; lra.
  - intros [|[|i]] [|[|j]] Hi Hj; try lia; unfold exX, exU, exs, exW; simpl; ring.
Qed.
Example ex_prox : forall i j, (i < 2)%nat -> (j < 2)%nat ->
  fst (prox_nuclear (fun _ => (exU, exs, exW)) 2 2 exX 2) i j = match i, j with O, 1%nat => -1 | _, _ => 0 end.
Proof.
  intros i j Hi Hj. unfold prox_nuclear, mdot, mdiag, exs. change (Nat.min 2 2) with 2%nat. cbn [fst].
  assert (E1 : Rmax 0 (3 - 2) = 1) by (unfold Rmax; destruct (Rle_dec 0 (3 - 2)); lra).
  assert (E2 : Rmax 0 (1 - 2) = 0) by (unfold Rmax; destruct (Rle_dec 0 (1 - 2)); lra).
  destruct i as [|[|i]], j as [|[|j]]; try lia; unfold exU, exW; simpl; rewrite ?E1, ?E2; ring.
Qed.
Example ex_nuclear : is_nuclear 2 2 exX 4.
Proof.
  pose proof (C60_norm_nuclear (fun _ => (exU, exs, exW)) 2 2 exX ex_svd) as H. unfold norm_nuclear in H. change (Nat.min 2 2) with 2%nat in H.
  replace 4 with (sumn 2 exs); [exact H|]. unfold exs. simpl. ring.
Qed.
Print Assumptions C60_norm_nuclear.
Print Assumptions C60_prox_nuclear.
