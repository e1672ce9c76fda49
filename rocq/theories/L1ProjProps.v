(** Property C18. *)
Require Import String List Reals Lra Lia Arith Bool.
Require Import Verif.RVec Verif.ProxModel Verif.ProxSpec Verif.ProxProofs Verif.L1ProjModel Verif.L1ProjProofs.
Import ListNotations.
Local Open Scope R_scope.

(** The sort-based algorithm, with axis None ([noaxis] true) or on one fibre of an axis. *)
Theorem C18_sortsum_nearest noaxis n v gamma : (0 < n)%nat -> 0 <= gamma ->
  nearest n (fun x => nrm1 n x <= gamma) v (proj_l1_sortsum noaxis n v gamma) /\
  (nrm1 n v <= gamma -> forall i, (i < n)%nat -> proj_l1_sortsum noaxis n v gamma i = v i).
Proof. exact (sortsum_ok noaxis n v gamma). Qed.
Print Assumptions C18_sortsum_nearest.

(** The root-finding algorithm: the call of brentq satisfies its precondition (continuity and sign change), and any root
    it returns gives the nearest point. *)
Theorem C18_scalarroot_nearest brentq n v gamma : (0 < n)%nat -> 0 <= gamma ->
  root_finder_at brentq (root_fn n v gamma) 0 (vmax n (fun i => Rabs (v i))) ->
  nearest n (fun x => nrm1 n x <= gamma) v (proj_l1_scalarroot brentq n v gamma) /\
  (nrm1 n v <= gamma -> forall i, proj_l1_scalarroot brentq n v gamma i = v i).
Proof. intros Hn Hg H. exact (scalarroot_ok brentq n v gamma H Hn Hg). Qed.
Print Assumptions C18_scalarroot_nearest.

Theorem C18_brentq_precondition n v gamma : (0 < n)%nat -> 0 <= gamma -> gamma < nrm1 n v ->
  let m := vmax n (fun i => Rabs (v i)) in
  continuity (root_fn n v gamma) /\ 0 <= m /\ root_fn n v gamma 0 * root_fn n v gamma m <= 0.
Proof.
  intros Hn Hg H m. split; [apply root_fn_continuous|split; [apply vmax_nonneg|]].
  destruct (bracket n v gamma Hn Hg H) as [A B]. simpl in B. fold m in B. nra.
Qed.
Print Assumptions C18_brentq_precondition.

(** Whichever algorithm the dispatch in proj_l1 chooses, the results agree. *)
Theorem C18_methods_agree brentq n v gamma m1 m2 p1 p2 : (0 < n)%nat -> 0 <= gamma ->
  root_finder_at brentq (root_fn n v gamma) 0 (vmax n (fun i => Rabs (v i))) ->
  proj_l1 brentq m1 true n v gamma = Some p1 -> proj_l1 brentq m2 true n v gamma = Some p2 ->
  forall i, (i < n)%nat -> p1 i = p2 i.
Proof.
  intros Hn Hg Hb.
  assert (K : forall m p, proj_l1 brentq m true n v gamma = Some p -> nearest n (fun x => nrm1 n x <= gamma) v p).
  { intros m p H. unfold proj_l1 in H.
    destruct (String.eqb _ "scalarroot").
    - injection H as <-. apply (C18_scalarroot_nearest brentq n v gamma Hn Hg Hb).
    - destruct (String.eqb _ "sortcumsum"); [|discriminate]. injection H as <-. apply (C18_sortsum_nearest true n v gamma Hn Hg). }
  intros H1 H2 i Hi. apply K in H1. apply K in H2. destruct H1 as (C1 & M1 & _). destruct H2 as (_ & _ & U2).
  apply U2; assumption.
Qed.
Print Assumptions C18_methods_agree.

(** The default choice always succeeds; an explicit choice fails exactly for an unknown name or for scalarroot with an axis. *)
Theorem C18_dispatch brentq method noaxis n v gamma :
  proj_l1 brentq method noaxis n v gamma = None <->
  exists m, method = Some m /\ m <> "sortcumsum"%string /\ (m = "scalarroot"%string -> noaxis = false).
Proof.
  unfold proj_l1. destruct method as [m|].
  - destruct (String.eqb_spec m "scalarroot") as [->|N1].
    + destruct noaxis; split; intros H; try discriminate; try reflexivity.
      * destruct H as (m & E & _ & F). injection E as <-. discriminate (F eq_refl).
      * exists "scalarroot"%string. repeat split; discriminate.
    + destruct (String.eqb_spec m "sortcumsum") as [->|N2]; split; intros H; try discriminate; try reflexivity.
      * destruct H as (m & E & F & _). injection E as <-. contradiction.
      * exists m. repeat split; [exact N2|]. intros; contradiction.
  - destruct noaxis; simpl; split; try discriminate; intros (m & E & _); discriminate.
Qed.
Print Assumptions C18_dispatch.

(** A concrete root finder call meeting the contract: v = (3, -1), gamma = 2, threshold 1. *)
Example C18_example :
  let v := fun i => if Nat.eqb i 0 then 3 else -1 in
  let br := fun (_ : R -> R) (_ _ : R) => 1 in
  root_finder_at br (root_fn 2 v 2) 0 (vmax 2 (fun i => Rabs (v i))) /\ 2 < nrm1 2 v /\
  proj_l1_scalarroot br 2 v 2 0%nat = 2 /\ proj_l1_scalarroot br 2 v 2 1%nat = 0.
Proof.
  simpl. unfold nrm1. simpl. rewrite (Rabs_right 3), (Rabs_left (-1)) by lra. split; [|split; [lra|]].
  - intros _ _ _. rewrite Rmax_left by lra. split; [lra|]. unfold root_fn. simpl.
    rewrite (Rabs_right 3), (Rabs_left (-1)), Rmax_right, Rmax_left by lra. lra.
  - unfold proj_l1_scalarroot, norm_l1. simpl. rewrite (Rabs_right 3), (Rabs_left (-1)) by lra.
    assert (E : leb (0 + 3 + - -1) 2 = false) by (apply leb_false; lra). rewrite E.
    unfold prox_l1. simpl. rewrite sgn_pos, sgn_neg, (Rabs_right 3), (Rabs_left (-1)), Rmax_left, Rmax_right by lra. split; lra.
Qed.
