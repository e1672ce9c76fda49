(** C59: suppression of boundary-crossing filters. *)
Require Import List Arith ZArith Reals Lra Lia Bool.
Require Import Verif.ProxModel Verif.BndryModel.
Import ListNotations.
Local Open Scope nat_scope.

(** Specification. A coefficient at position i of an axis puts a filter of length d on the samples i, ..., i + d - 1. *)
Definition crosses (dimN : nat) (Nv dshape ix : list nat) : Prop := exists n, n < dimN /\ nth n Nv 0 < nth n ix 0 + nth n dshape 0.
Definition inside (dimN : nat) (Nv ix : list nat) : Prop := forall n, n < dimN -> nth n ix 0 < nth n Nv 0.
(** A zero-padded filter: zero outside its support. *)
Definition supported (dimN : nat) (dshape : list nat) (d : list nat -> R) : Prop := forall k, (exists n, n < dimN /\ nth n dshape 0 <= nth n k 0) -> d k = 0%R.
Fixpoint circ_sub (dimN : nat) (Nv j i : list nat) : list nat :=
  match dimN, Nv, j, i with S m, N :: Nv', b :: j', a :: i' => (b + N - a) mod N :: circ_sub m Nv' j' i' | _, _, _, _ => [] end.
Fixpoint lin_sub (dimN : nat) (j i : list nat) : list nat :=
  match dimN, j, i with S m, b :: j', a :: i' => b - a :: lin_sub m j' i' | _, _, _ => [] end.

Lemma no_cross_spec dimN Nv dshape x ix :
  ((exists n, n < dimN /\ slice_start (nth n Nv 0) (1 - Z.of_nat (nth n dshape 0)) <= nth n ix 0) -> no_cross dimN Nv dshape x ix = 0%R) /\
  ((forall n, n < dimN -> nth n ix 0 < slice_start (nth n Nv 0) (1 - Z.of_nat (nth n dshape 0))) -> no_cross dimN Nv dshape x ix = x ix).
Proof.
  unfold no_cross. set (F := fun n => slice_start (nth n Nv 0) (1 - Z.of_nat (nth n dshape 0))).
  assert (G : forall l x, ((exists n, In n l /\ F n <= nth n ix 0) -> fold_left (fun y n => zero_from n (F n) y) l x ix = 0%R) /\
     ((forall n, In n l -> nth n ix 0 < F n) -> fold_left (fun y n => zero_from n (F n) y) l x ix = x ix)).
  { assert (Z : forall l x, x ix = 0%R -> fold_left (fun y n => zero_from n (F n) y) l x ix = 0%R) by (induction l as [|n l IH]; intros y Hy; [exact Hy|]; simpl; apply IH; unfold zero_from; destruct (_ <=? _); [reflexivity|exact Hy]).
    induction l as [|n l IH]; intros y; [split; [intros (n & [] & _)|reflexivity]|]. simpl. destruct (IH (zero_from n (F n) y)) as [I1 I2]. split.
    - intros (q & [->|Hq] & Hle); [apply Z; unfold zero_from; apply Nat.leb_le in Hle; rewrite Hle; reflexivity|apply I1; exists q; tauto].
    - intros H. rewrite I2 by (intros q Hq; apply H; tauto). unfold zero_from. destruct (Nat.leb_spec (F n) (nth n ix 0)); [|reflexivity]. specialize (H n (or_introl eq_refl)). lia. }
  destruct (G (seq 0 dimN) x) as [G1 G2]. split.
  - intros (n & Hn & Hle). apply G1. exists n. split; [apply in_seq; lia|exact Hle].
  - intros H. apply G2. intros n Hn. apply H. apply in_seq in Hn. lia.
Qed.
Lemma start_big N d : 2 <= d -> forall i, i < N -> (slice_start N (1 - Z.of_nat d) <= i <-> N < i + d).
Proof.
  intros Hd i Hi. unfold slice_start. destruct (Z.ltb_spec (1 - Z.of_nat d) 0); lia.
Qed.
Lemma start_one N : slice_start N (1 - Z.of_nat 1) = 0.
Proof. unfold slice_start. destruct (Z.ltb_spec (1 - Z.of_nat 1) 0); lia. Qed.

(** If all filters extend over at least two samples along every axis, exactly the crossing coefficients become zero. *)
Theorem C59_exact dimN Nv dshape x ix : (forall n, n < dimN -> 2 <= nth n dshape 0) -> inside dimN Nv ix ->
  (crosses dimN Nv dshape ix -> no_cross dimN Nv dshape x ix = 0%R) /\ (~ crosses dimN Nv dshape ix -> no_cross dimN Nv dshape x ix = x ix).
Proof.
  intros Hd Hi. destruct (no_cross_spec dimN Nv dshape x ix) as [S1 S2]. split.
  - intros (n & Hn & Hc). apply S1. exists n. split; [exact Hn|]. apply start_big; [apply Hd, Hn|apply Hi, Hn|exact Hc].
  - intros Hc. apply S2. intros n Hn. destruct (Nat.lt_ge_cases (nth n ix 0) (slice_start (nth n Nv 0) (1 - Z.of_nat (nth n dshape 0)))) as [L|L]; [exact L|]. exfalso. apply Hc. exists n. split; [exact Hn|].
    apply start_big; [apply Hd, Hn|apply Hi, Hn|exact L].
Qed.
(** A filter of size one along any axis: the slice starts at 0 and every coefficient is removed, though none crosses along that axis. *)
Theorem C59_size_one_refuted dimN Nv dshape x : (exists n, n < dimN /\ nth n dshape 0 = 1) -> forall ix, no_cross dimN Nv dshape x ix = 0%R.
Proof.
  intros (n & Hn & E) ix. apply no_cross_spec. exists n. split; [exact Hn|]. rewrite E, start_one. lia.
Qed.
Theorem C59_size_one_witness : exists dimN Nv dshape ix, inside dimN Nv ix /\ ~ crosses dimN Nv dshape ix /\ no_cross dimN Nv dshape (fun _ => 1%R) ix <> 1%R.
Proof.
  exists 2, [8; 8], [3; 1], [2; 5]. split; [intros [|[|n]] Hn; simpl; lia|]. split; [intros ([|[|n]] & Hn & Hc); simpl in Hc; lia|].
  rewrite C59_size_one_refuted by (exists 1; split; [lia|reflexivity]). lra.
Qed.
(** The exact effect for all filter sizes from one. *)
Theorem C59_characterised dimN Nv dshape x ix : (forall n, n < dimN -> 1 <= nth n dshape 0) -> inside dimN Nv ix ->
  let gone := crosses dimN Nv dshape ix \/ (exists n, n < dimN /\ nth n dshape 0 = 1) in
  (gone -> no_cross dimN Nv dshape x ix = 0%R) /\ (~ gone -> no_cross dimN Nv dshape x ix = x ix).
Proof.
  intros Hd Hi gone. split.
  - intros [(n & Hn & Hc)|H]; [|apply C59_size_one_refuted, H]. apply no_cross_spec. exists n. split; [exact Hn|].
    destruct (Nat.eq_dec (nth n dshape 0) 1) as [E|E]; [rewrite E, start_one; lia|]. specialize (Hd n Hn). apply start_big; [lia|apply Hi, Hn|exact Hc].
  - intros G. apply C59_exact; [|exact Hi|intros C; apply G; left; exact C]. intros n Hn. specialize (Hd n Hn). destruct (Nat.eq_dec (nth n dshape 0) 1) as [E|E]; [exfalso; apply G; right; exists n; tauto|lia].
Qed.

Lemma circ_nth dimN : forall Nv j i n, length Nv = dimN -> length j = dimN -> length i = dimN -> n < dimN -> nth n (circ_sub dimN Nv j i) 0 = (nth n j 0 + nth n Nv 0 - nth n i 0) mod nth n Nv 0.
Proof.
  induction dimN as [|m IH]; intros [|N Nv] [|b j] [|a i] n H1 H2 H3 Hn; simpl in H1, H2, H3; try lia. destruct n as [|n]; [reflexivity|]. cbn [circ_sub nth]. apply IH; lia.
Qed.
Lemma subs_eq dimN : forall Nv j i, length Nv = dimN -> length j = dimN -> length i = dimN -> inside dimN Nv i -> inside dimN Nv j -> (forall n, n < dimN -> nth n i 0 <= nth n j 0) -> circ_sub dimN Nv j i = lin_sub dimN j i.
Proof.
  induction dimN as [|m IH]; intros [|N Nv] [|b j] [|a i] H1 H2 H3 I1 I2 Hle; simpl in H1, H2, H3; try lia; [reflexivity|]. cbn [circ_sub lin_sub].
  pose proof (I1 0 ltac:(lia)) as A. pose proof (I2 0 ltac:(lia)) as B. pose proof (Hle 0 ltac:(lia)) as C. simpl in A, B, C. f_equal.
  - replace (b + N - a) with (b - a + 1 * N) by lia. rewrite Nat.mod_add by lia. apply Nat.mod_small. lia.
  - apply IH; try lia; intros n Hn; [apply (I1 (S n))|apply (I2 (S n))|apply (Hle (S n))]; lia.
Qed.
(** The effect on the reconstruction: with the crossing coefficients removed, no term of the circular convolution wraps around; each
    coefficient contributes to a sample as in the ordinary convolution of a zero-padded filter. *)
Theorem C59_no_wrap dimN Nv dshape x d ix jx : length Nv = dimN -> length ix = dimN -> length jx = dimN -> (forall n, n < dimN -> 2 <= nth n dshape 0) ->
  inside dimN Nv ix -> inside dimN Nv jx -> supported dimN dshape d ->
  ((forall n, n < dimN -> nth n ix 0 <= nth n jx 0) -> (no_cross dimN Nv dshape x ix * d (circ_sub dimN Nv jx ix) = no_cross dimN Nv dshape x ix * d (lin_sub dimN jx ix))%R) /\
  ((exists n, n < dimN /\ nth n jx 0 < nth n ix 0) -> (no_cross dimN Nv dshape x ix * d (circ_sub dimN Nv jx ix) = 0)%R).
Proof.
  intros L1 L2 L3 Hd Hi Hj Hs. split.
  - intros Hle. rewrite subs_eq; [reflexivity|assumption..].
  - intros (n & Hn & Hlt). destruct (Nat.lt_ge_cases (nth n Nv 0) (nth n ix 0 + nth n dshape 0)) as [C|C].
    + rewrite (proj1 (C59_exact dimN Nv dshape x ix Hd Hi)); [ring|]. exists n. tauto.
    + rewrite Hs; [ring|]. exists n. split; [exact Hn|]. rewrite circ_nth by assumption. rewrite Nat.mod_small; [lia|]. pose proof (Hi n Hn). lia.
Qed.

(** The constrained step is the exact minimiser of the thresholding problem over the admissible coefficients, entry by entry. *)
Theorem C59_ystep_minimises nn nb dimN Nv dshape v thr z ix : (0 <= thr ix)%R -> (forall n, n < dimN -> 2 <= nth n dshape 0) -> inside dimN Nv ix ->
  (nn = true -> (0 <= z ix)%R) -> (nb = true -> crosses dimN Nv dshape ix -> z ix = 0%R) ->
  let y := ystep nn nb dimN Nv dshape v thr in
  ((nn = true -> 0 <= y ix) /\ (nb = true -> crosses dimN Nv dshape ix -> y ix = 0) /\
   thr ix * Rabs (y ix) + (y ix - v ix) ^ 2 / 2 <= thr ix * Rabs (z ix) + (z ix - v ix) ^ 2 / 2)%R.
Proof.
  intros Ht Hd Hi Hz1 Hz2 y. set (s := (sgn (v ix) * Rmax (Rabs (v ix) - thr ix) 0)%R).
  assert (Hs : (0 <= v ix /\ s = Rmax (v ix - thr ix) 0 \/ v ix < 0 /\ s = - Rmax (- v ix - thr ix) 0)%R).
  { unfold s, sgn, ltb. destruct (Rlt_dec 0 (v ix)); [left; rewrite Rabs_right by lra; lra|]. destruct (Rlt_dec (v ix) 0); [right; rewrite Rabs_left by lra; lra|].
    left. replace (v ix) with 0%R by lra. rewrite Rabs_R0. split; [lra|]. rewrite Rmax_right by lra. ring. }
  assert (HZ : (forall c t : R, 0 <= t -> forall q, (0 <= q /\ (c - t <= 0 /\ q = 0 \/ 0 <= c - t /\ q = c - t)) -> forall u, t * Rabs q + (q - c) ^ 2 / 2 <= t * Rabs u + (u - c) ^ 2 / 2 \/ c < 0)%R).
  { intros c t Htt q [Hq [[A ->]|[A ->]]] u.
    - destruct (Rlt_dec c 0) as [Hc|Hc]; [right; exact Hc|left]. rewrite Rabs_R0. unfold Rabs. destruct (Rcase_abs u); nra.
    - left. rewrite (Rabs_right (c - t)) by lra. unfold Rabs. destruct (Rcase_abs u); [nra|]. pose proof (pow2_ge_0 (u - (c - t))). nra. }
  assert (Hy : y ix = s /\ ~ (nb = true /\ crosses dimN Nv dshape ix) /\ (nn = true -> 0 <= s)%R \/ y ix = 0%R /\ nn = true /\ (s < 0)%R \/ y ix = 0%R /\ nb = true /\ crosses dimN Nv dshape ix).
  { unfold y, ystep, constrain. set (p := fun ix0 => (sgn (v ix0) * Rmax (Rabs (v ix0) - thr ix0) 0)%R). change s with (p ix). clearbody p.
    assert (Hc : forall w : arr, (nn = true -> w = clip p) -> (nn = false -> w = p) -> w ix = p ix /\ (nn = true -> (0 <= p ix)%R) \/ w ix = 0%R /\ nn = true /\ (p ix < 0)%R).
    { intros w W1 W2. destruct nn; [rewrite (W1 eq_refl)|rewrite (W2 eq_refl)].
      - unfold clip. destruct (Rlt_dec (p ix) 0); [right; tauto|left; split; [reflexivity|lra]].
      - left. split; [reflexivity|discriminate]. }
    specialize (Hc (if nn then clip p else p) ltac:(intros ->; reflexivity) ltac:(intros ->; reflexivity)). set (w := if nn then clip p else p) in *.
    destruct nb; [|destruct Hc as [[E1 E2]|[E1 E2]]; [left; split; [exact E1|split; [intros [E _]; discriminate|exact E2]]|right; left; tauto]].
    destruct (C59_exact dimN Nv dshape w ix Hd Hi) as [X1 X2].
    assert (D : crosses dimN Nv dshape ix \/ ~ crosses dimN Nv dshape ix).
    { unfold crosses. clear. induction dimN as [|m [(n & H1 & H2)|IH]]; [right; intros (n & H & _); lia|left; exists n; split; [lia|exact H2]|].
      destruct (Nat.lt_ge_cases (nth m Nv 0) (nth m ix 0 + nth m dshape 0)) as [C|C]; [left; exists m; split; [lia|exact C]|]. right. intros (n & H1 & H2). destruct (Nat.eq_dec n m) as [->|]; [lia|]. apply IH. exists n. split; [lia|exact H2]. }
    destruct D as [D|D]; [right; right; split; [apply X1, D|tauto]|]. rewrite (X2 D). destruct Hc as [[E1 E2]|[E1 E2]]; [left|right; left; tauto]. split; [exact E1|]. split; [tauto|exact E2]. }
  destruct Hy as [(E & N1 & N2)|[(E & N1 & N2)|(E & N1 & N2)]].
  - split; [intros Hn; rewrite E; apply N2, Hn|]. split; [intros Hn Hc; exfalso; apply N1; tauto|]. rewrite E.
    destruct Hs as [[Hv ->]|[Hv ->]].
    + destruct (HZ (v ix) (thr ix) Ht (Rmax (v ix - thr ix) 0)) with (u := z ix) as [Q|Q]; [|exact Q|lra]. unfold Rmax. destruct (Rle_dec (v ix - thr ix) 0); split; lra.
    + destruct (HZ (- v ix)%R (thr ix) Ht (Rmax (- v ix - thr ix) 0)) with (u := (- z ix)%R) as [Q|Q]; [unfold Rmax; destruct (Rle_dec (- v ix - thr ix) 0); split; lra| |lra].
      rewrite !Rabs_Ropp in Q. rewrite Rabs_Ropp. replace ((- Rmax (- v ix - thr ix) 0 - v ix) ^ 2)%R with ((Rmax (- v ix - thr ix) 0 - - v ix) ^ 2)%R by ring.
      replace ((z ix - v ix) ^ 2)%R with ((- z ix - - v ix) ^ 2)%R by ring. exact Q.
  - rewrite E. split; [intros; lra|]. split; [reflexivity|]. rewrite Rabs_R0. specialize (Hz1 N1). assert (Hv : (v ix < 0)%R) by (destruct Hs as [[Hv ->]|[Hv _]]; [pose proof (Rmax_r (v ix - thr ix) 0); lra|exact Hv]).
    rewrite (Rabs_right (z ix)) by lra. nra.
  - rewrite E, (Hz2 N1 N2). split; [intros; lra|]. split; [reflexivity|lra].
Qed.
Example C59_ex : inside 1 [5] [3] /\ crosses 1 [5] [3] [3] /\ no_cross 1 [5] [3] (fun _ => 1%R) [3] = 0%R /\ ~ crosses 1 [5] [3] [2] /\ no_cross 1 [5] [3] (fun _ => 1%R) [2] = 1%R.
Proof.
  split; [intros [|n] H; simpl; lia|]. split; [exists 0; simpl; lia|]. split; [reflexivity|]. split; [intros ([|n] & H & C); simpl in C; lia|reflexivity].
Qed.
Print Assumptions C59_exact. Print Assumptions C59_characterised. Print Assumptions C59_no_wrap. Print Assumptions C59_ystep_minimises. Print Assumptions C59_size_one_refuted. Print Assumptions C59_size_one_witness.
