(** C62: flattening for norms is reversible. *)
Require Import List Arith ZArith Bool Lia Permutation.
Require Import Verif.NdIndex Verif.FlatModel Verif.FlatSpec Verif.FlatProofs.
Import ListNotations.
Local Open Scope nat_scope.

Section c62.
(** The iteration order of a Python set of integers is not specified: the theorems hold for every order. *)
Variable setorder : list nat -> list nat.
Hypothesis Hso : forall l, Permutation (setorder l) l.

Theorem C62_roundtrip {A} (x : arr A) axis y rsi : ndto2d setorder x axis = Ok (y, rsi) ->
  exists z, ndfrom2d y rsi = Some z /\ shape z = shape x /\ forall idx, inb (shape x) idx -> get z idx = get x idx.
Proof. exact (roundtrip setorder x axis y rsi). Qed.

Theorem C62_rows_are_fibres {A} (x : arr A) axis y rsi : ndto2d setorder x axis = Ok (y, rsi) ->
  exists phi, flattened x y (map Z.to_nat (normaxis (length (shape x)) axis)) phi.
Proof. exact (ndto2d_flattened setorder x axis y rsi). Qed.

(** A row-wise operation between the two calls (as in proj_l1 with a tuple of axes) acts on every fibre separately: entries of the result are
    the entries of the operation applied to the row that the fibre occupies. *)
Theorem C62_rowwise {A} (x : arr A) axis y rsi (f : (nat -> A) -> nat -> A) : ndto2d setorder x axis = Ok (y, rsi) ->
  exists z phi, ndfrom2d (mkarr (shape y) (fun i => f (fun q => get y [nth 0 i 0; q]) (nth 1 i 0))) rsi = Some z /\ shape z = shape x /\
    flattened x y (map Z.to_nat (normaxis (length (shape x)) axis)) phi /\
    forall r q, r < nth 0 (shape y) 0 -> q < nth 1 (shape y) 0 -> get z (phi r q) = f (fun q' => get y [r; q']) q.
Proof.
  intros H. destruct (ndto2d_inv setorder x axis y rsi H) as (c & ax & EA & HP & Hc & Hpos & -> & ->).
  destruct (ndto2d_flattened setorder x axis _ _ H) as (phi & HF). rewrite <- EA in *. clear H EA.
  set (s := shape x) in *. set (prm := c ++ ax) in *. pose proof HP as (L & B & N). pose proof (perm_argsort _ _ HP) as HI. pose proof HI as (LI & _ & _).
  set (P := prod (gather c s)) in *. set (Q := prod (gather ax s)) in *.
  assert (EP : prod (gather prm s) = P * Q) by (unfold prm, gather; rewrite map_app, prod_app; reflexivity).
  assert (GA : gather prm s = gather c s ++ gather ax s) by apply map_app.
  pose proof (flat_from x c ax HP) as Hfrom. fold s prm P Q in Hfrom.
  eexists. exists (from c ax s). split; [|split; [|split; [exact Hfrom|]]].
  - unfold ndfrom2d. apply transpose_spec. cbn [reshape shape]. rewrite gather_length. fold prm. rewrite L. split; [exact HI|reflexivity].
  - cbn [shape reshape]. apply (inv_shape s prm HP).
  - intros r q Hr Hq. cbn in Hr, Hq. cbn [get].
    assert (Hl : length (from c ax s r q) = length s) by (unfold from; rewrite orig_length; exact L).
    rewrite (orig_argsort _ _ _ HP Hl). unfold from. fold prm. rewrite (gather_orig (length s)); [|exact HP|].
    2:{ rewrite app_length. rewrite (inb_length _ _ (unravel_inb _ _ Hr)), (inb_length _ _ (unravel_inb _ _ Hq)), !gather_length. rewrite <- L. symmetry. apply app_length. }
    unfold reshape. cbn [get shape].
    assert (ER : ravel (gather prm s) (unravel (gather c s) r ++ unravel (gather ax s) q) = r * Q + q).
    { rewrite GA, ravel_app by (apply inb_length, unravel_inb, Hr). rewrite !ravel_unravel by assumption. reflexivity. }
    rewrite ER. cbn [unravel prod]. rewrite !Nat.mul_1_r, !Nat.div_1_r.
    rewrite Nat.div_add_l by lia. rewrite Nat.div_small by exact Hq. rewrite (Nat.add_comm (r * Q)), Nat.mod_add by lia. rewrite Nat.mod_small by exact Hq. cbn [nth]. rewrite Nat.add_0_r. reflexivity.
Qed.

(** Exactly when ndto2d succeeds: axes in range and distinct, at least one other axis, and no other axis empty. *)
Theorem C62_accepts {A} (x : arr A) axis :
  (exists y rsi, ndto2d setorder x axis = Ok (y, rsi)) <->
  let nd := length (shape x) in let ax := normaxis nd axis in
  (forall k, In k axis -> (- Z.of_nat nd <= k < Z.of_nat nd)%Z) /\ NoDup ax /\ length axis < nd /\
  (forall a, a < nd -> ~ In (Z.of_nat a) ax -> 0 < nth a (shape x) 0).
Proof.
  exact (accepts setorder Hso x axis).
Qed.
End c62.

(** Flattening over all axes is refused with TypeError (np.prod of an empty tuple is a float), although it is reversible: proj_l1 with
    axis=(0, 1) fails on two-dimensional arrays. *)
Theorem C62_all_axes_refuted : forall (setorder : list nat -> list nat), (forall l, Permutation (setorder l) l) ->
  forall {A} (x : arr A) axis, Permutation (normaxis (length (shape x)) axis) (map Z.of_nat (seq 0 (length (shape x)))) ->
  ndto2d setorder x axis = TypeErr.
Proof. exact @all_axes. Qed.

Example C62_ex : exists (y : arr nat) rsi, ndto2d (fun l => l) (mkarr [2; 3; 4] (fun i => ravel [2; 3; 4] i)) [-3; 1]%Z = Ok (y, rsi) /\
  shape y = [4; 6] /\ get y [1; 0] = 1 /\ get y [1; 5] = 21.
Proof. eexists _, _. split; [reflexivity|]. repeat split. Qed.
Print Assumptions C62_roundtrip. Print Assumptions C62_rows_are_fibres. Print Assumptions C62_rowwise. Print Assumptions C62_accepts. Print Assumptions C62_all_axes_refuted.
