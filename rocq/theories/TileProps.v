(** C57: dictionary tiling shows every atom exactly once. *)
Require Import List Arith Reals Bool Lia Lra.
Require Import Verif.RVec Verif.TileModel.
Import ListNotations.
Local Open Scope nat_scope.

(** The sizes are consistent with the dictionary: one per filter, none larger than the array. *)
Definition sizes_ok (D : dict) (sz : option (list (nat * nat * nat))) : Prop :=
  length (sizes D sz) = d_num D /\ Forall (fun s => fst s <= d_rows D /\ snd s <= d_cols D) (sizes D sz).

Lemma grid_room N Vr Vc : grid N = Some (Vr, Vc) -> 0 < Vr /\ 0 < Vc /\ Vr <= Vc /\ N <= Vr * Vc /\ (Vr - 1) * Vc < N.
Proof.
  unfold grid. destruct (Nat.eqb_spec (Nat.sqrt N) 0) as [E|E]; [discriminate|]. intros H. injection H as <- <-. set (v := Nat.sqrt N) in *.
  pose proof (Nat.sqrt_spec N ltac:(lia)) as [S1 S2]. fold v in S1, S2.
  pose proof (Nat.div_mod (N + v - 1) v E) as D. pose proof (Nat.mod_upper_bound (N + v - 1) v E) as B. set (q := (N + v - 1) / v) in *. set (m := (N + v - 1) mod v) in *.
  assert (N <= v * q) by nia. assert (v <= q) by nia. split; [lia|]. split; [lia|]. split; [assumption|]. split; [assumption|].
  assert (v * q <= N + v - 1) by lia. destruct (Nat.eq_dec v 1) as [->|]; [lia|]. nia.
Qed.
Lemma cells_nth Vr Vc : 0 < Vc -> cells Vr Vc = map (fun k => (k / Vc, k mod Vc)) (seq 0 (Vr * Vc)).
Proof.
  intros Hc. unfold cells.
  assert (G : forall a n, flat_map (fun l => map (fun m => (l, m)) (seq 0 Vc)) (seq a n) = map (fun k => (k / Vc, k mod Vc)) (seq (a * Vc) (n * Vc))).
  { intros a n. revert a. induction n as [|n IH]; intros a; [reflexivity|]. cbn [seq flat_map]. rewrite IH. cbn [Nat.mul]. rewrite seq_app, map_app. f_equal; [|f_equal; f_equal; lia].
    apply (nth_ext _ _ (0, 0) (0, 0)); [rewrite !map_length, !seq_length; reflexivity|]. intros k Hk. rewrite map_length, seq_length in Hk.
    rewrite (nth_indep _ (0, 0) ((fun m => (a, m)) 0)) by (rewrite map_length, seq_length; exact Hk). rewrite (map_nth (fun m => (a, m))), seq_nth by exact Hk.
    rewrite (nth_indep _ (0, 0) ((fun k => (k / Vc, k mod Vc)) 0)) by (rewrite map_length, seq_length; exact Hk). rewrite (map_nth (fun k => (k / Vc, k mod Vc))), seq_nth by exact Hk.
    rewrite Nat.div_add_l, Nat.div_small by lia. rewrite (Nat.add_comm (a * Vc)), Nat.mod_add, Nat.mod_small by lia. f_equal; lia. }
  rewrite G. reflexivity.
Qed.
Lemma max_ge (l : list nat) k : k < length l -> nth k l 0 <= fold_right Nat.max 0 l.
Proof. revert k. induction l as [|a l IH]; intros k Hk; simpl in *; [lia|]. destruct k as [|k]; [lia|]. specialize (IH k ltac:(lia)). lia. Qed.
Lemma maxsz_ge l k : k < length l -> fst (nth k l (0, 0)) <= fst (maxsz l) /\ snd (nth k l (0, 0)) <= snd (maxsz l).
Proof.
  intros H. unfold maxsz. cbn [fst snd]. split.
  - rewrite <- (map_nth fst l (0, 0) k). apply max_ge. rewrite map_length. exact H.
  - rewrite <- (map_nth snd l (0, 0) k). apply max_ge. rewrite map_length. exact H.
Qed.

Section proof.
Variables (D : dict) (sz : list (nat * nat)) (Vc : nat).
Hypothesis HV : 0 < Vc.
Hypothesis Hsz : length sz = d_num D.
Notation mx := (maxsz sz).
Definition crow (k : nat) : nat := (fst mx + 1) * (k / Vc).
Definition ccol (k : nat) : nat := (snd mx + 1) * (k mod Vc).
Definition incell (k i j : nat) : Prop := crow k <= i < crow k + fst (nth k sz (0, 0)) /\ ccol k <= j < ccol k + snd (nth k sz (0, 0)).
Lemma disjoint k k' i j : k < d_num D -> k' < d_num D -> incell k i j -> incell k' i j -> k = k'.
Proof.
  intros Hk Hk' [A1 A2] [B1 B2]. pose proof (maxsz_ge sz k ltac:(lia)) as [M1 M2]. pose proof (maxsz_ge sz k' ltac:(lia)) as [M3 M4].
  unfold crow, ccol in *. assert (k / Vc = k' / Vc) by nia. assert (k mod Vc = k' mod Vc) by nia.
  rewrite (Nat.div_mod k Vc), (Nat.div_mod k' Vc) by lia. congruence.
Qed.
Lemma write_spec k im i j ch : let im' := write mx sz D k (k / Vc) (k mod Vc) im in
  (incell k i j -> im' i j ch = d_val D (i - crow k) (j - ccol k) ch k) /\ (~ incell k i j -> im' i j ch = im i j ch).
Proof.
  cbv zeta. unfold write. destruct (nth k sz (0, 0)) as [h w] eqn:E. unfold incell. rewrite E. cbn [fst snd].
  replace (fst mx * (k / Vc) + k / Vc) with (crow k) by (unfold crow; lia). replace (snd mx * (k mod Vc) + k mod Vc) with (ccol k) by (unfold ccol; lia).
  destruct (Nat.leb_spec (crow k) i), (Nat.ltb_spec i (crow k + h)), (Nat.leb_spec (ccol k) j), (Nat.ltb_spec j (ccol k + w)); cbn [andb]; split; intros Q; try reflexivity; try lia; exfalso; apply Q; lia.
Qed.
Lemma loop_spec n : forall k im, k + n <= d_num D -> 0 < n -> forall rest i j ch,
  let im' := tile_loop mx sz D (map (fun k => (k / Vc, k mod Vc)) (seq k n) ++ rest) k im in k + n = d_num D ->
  (forall q, k <= q < d_num D -> incell q i j -> im' i j ch = d_val D (i - crow q) (j - ccol q) ch q) /\
  ((forall q, k <= q < d_num D -> ~ incell q i j) -> im' i j ch = im i j ch).
Proof.
  induction n as [|n IH]; intros k im Hle Hn rest i j ch; [lia|]. cbv zeta. cbn [seq map app tile_loop]. intros HN.
  destruct (write_spec k im i j ch) as [W1 W2].
  destruct (Nat.leb_spec (d_num D) (S k)) as [L|L].
  - assert (d_num D = S k) by lia. split.
    + intros q Hq Hc. replace q with k in * by lia. apply W1, Hc.
    + intros HH. apply W2, HH. lia.
  - specialize (IH (S k) (write mx sz D k (k / Vc) (k mod Vc) im) ltac:(lia) ltac:(lia) rest i j ch ltac:(lia)). cbv zeta in IH. destruct IH as [I1 I2]. split.
    + intros q Hq Hc. destruct (Nat.eq_dec q k) as [->|Nq]; [|apply I1; [lia|exact Hc]].
      rewrite I2; [apply W1, Hc|]. intros q' Hq' Hc'. assert (k = q') by (apply (disjoint k q' i j); [lia|lia|exact Hc|exact Hc']). lia.
    + intros HH. rewrite I2; [apply W2, HH; lia|]. intros q Hq. apply HH. lia.
Qed.
End proof.

(** Every filter k has a place (row k, col k) in the image: its cell lies inside the image and shows exactly its entries; cells of different
    filters have a line of background between them; everything outside the cells is background; and the grid has no empty row. *)
Theorem C57_tiling D sz rows cols im : sizes_ok D sz -> tiledict D sz = Some (rows, cols, im) ->
  exists row col : nat -> nat,
  (forall k, k < d_num D -> let (h, w) := nth k (sizes D sz) (0, 0) in
     row k + h <= rows /\ col k + w <= cols /\
     forall i j ch, i < h -> j < w -> im (row k + i) (col k + j) ch = d_val D i j ch k) /\
  (forall k k', k < d_num D -> k' < d_num D -> k <> k' ->
     row k + fst (nth k (sizes D sz) (0, 0)) < row k' \/ row k' + fst (nth k' (sizes D sz) (0, 0)) < row k \/
     col k + snd (nth k (sizes D sz) (0, 0)) < col k' \/ col k' + snd (nth k' (sizes D sz) (0, 0)) < col k) /\
  (forall i j ch, (forall k, k < d_num D -> ~ (row k <= i < row k + fst (nth k (sizes D sz) (0, 0)) /\ col k <= j < col k + snd (nth k (sizes D sz) (0, 0)))) -> im i j ch = 1%R).
Proof.
  intros [Hs Hb] H. unfold tiledict in H. destruct (grid (d_num D)) as [[Vr Vc]|] eqn:EG; [|discriminate]. injection H as <- <- <-.
  destruct (grid_room _ _ _ EG) as (H1 & H2 & H3 & H4 & H5). set (l := sizes D sz) in *.
  exists (crow l Vc), (ccol l Vc).
  assert (HN : 0 < d_num D) by (unfold grid in EG; destruct (d_num D); [discriminate|lia]).
  assert (EC : cells Vr Vc = map (fun k => (k / Vc, k mod Vc)) (seq 0 (d_num D)) ++ map (fun k => (k / Vc, k mod Vc)) (seq (d_num D) (Vr * Vc - d_num D))).
  { rewrite cells_nth by exact H2. rewrite <- map_app. f_equal. replace (Vr * Vc) with (d_num D + (Vr * Vc - d_num D)) at 1 by lia. rewrite seq_app. reflexivity. }
  rewrite EC. split; [|split].
  - intros k Hk. pose proof (maxsz_ge l k ltac:(lia)) as [M1 M2]. destruct (nth k l (0, 0)) as [h w] eqn:E. cbn [fst snd] in M1, M2.
    assert (Q1 : k / Vc < Vr) by (apply Nat.div_lt_upper_bound; lia). assert (Q2 : k mod Vc < Vc) by (apply Nat.mod_upper_bound; lia).
    assert (A : forall M q V, q < V -> (M + 1) * q + M + 1 <= V * M + V) by (intros M q V HqV; assert (exists e, V = q + 1 + e) as [e ->] by (exists (V - q - 1); lia); nia).
    pose proof (A (fst (maxsz l)) _ _ Q1). pose proof (A (snd (maxsz l)) _ _ Q2).
    change (fold_right Nat.max 0 (map fst l)) with (fst (maxsz l)). change (fold_right Nat.max 0 (map snd l)) with (snd (maxsz l)).
    split; [unfold crow; lia|]. split; [unfold ccol; lia|]. intros i j ch Hi Hj.
    destruct (loop_spec D l Vc H2 Hs (d_num D) 0 (fun _ _ _ => 1%R) ltac:(lia) HN (map (fun k => (k / Vc, k mod Vc)) (seq (d_num D) (Vr * Vc - d_num D))) (crow l Vc k + i) (ccol l Vc k + j) ch eq_refl) as [L1 _].
    rewrite (L1 k ltac:(lia)); [f_equal; lia|]. unfold incell. rewrite E. cbn [fst snd]. lia.
  - intros k k' Hk Hk' Hne. pose proof (maxsz_ge l k ltac:(lia)) as [M1 M2]. pose proof (maxsz_ge l k' ltac:(lia)) as [M3 M4]. unfold crow, ccol.
    destruct (Nat.lt_trichotomy (k / Vc) (k' / Vc)) as [E|[E|E]]; [left; nia| |right; left; nia].
    destruct (Nat.lt_trichotomy (k mod Vc) (k' mod Vc)) as [F|[F|F]]; [right; right; left; nia| |right; right; right; nia].
    exfalso. apply Hne. rewrite (Nat.div_mod k Vc), (Nat.div_mod k' Vc) by lia. congruence.
  - intros i j ch H.
    destruct (loop_spec D l Vc H2 Hs (d_num D) 0 (fun _ _ _ => 1%R) ltac:(lia) HN (map (fun k => (k / Vc, k mod Vc)) (seq (d_num D) (Vr * Vc - d_num D))) i j ch eq_refl) as [_ L2].
    apply L2. intros q Hq. apply H. lia.
Qed.
(** The grid: room for all filters, no empty row, at least as wide as high, and never more than one column more than needed. *)
Theorem C57_grid N Vr Vc : grid N = Some (Vr, Vc) -> N <= Vr * Vc /\ (Vr - 1) * Vc < N /\ Vr <= Vc /\ Vr * (Vc - 1) < N.
Proof.
  intros H. destruct (grid_room _ _ _ H) as (H1 & H2 & H3 & H4 & H5). repeat split; try assumption.
  unfold grid in H. destruct (Nat.eqb_spec (Nat.sqrt N) 0) as [E|E]; [discriminate|]. injection H as <- <-. set (v := Nat.sqrt N) in *.
  pose proof (Nat.div_mod (N + v - 1) v E) as D. set (q := (N + v - 1) / v) in *. nia.
Qed.
(** It succeeds exactly for non-empty dictionaries. *)
Theorem C57_defined D sz : tiledict D sz = None <-> d_num D = 0.
Proof.
  unfold tiledict, grid. split.
  - destruct (Nat.eqb_spec (Nat.sqrt (d_num D)) 0) as [E|E]; [|discriminate]. intros _. pose proof (Nat.sqrt_spec (d_num D) ltac:(lia)) as S. rewrite E in S. lia.
  - intros ->. reflexivity.
Qed.
(** The values shown: the dictionary rescaled affinely to [0, 1], with both ends attained, except for a constant dictionary, which gives 0/0. *)
Lemma min_spec a l : (forall x, In x (a :: l) -> lmin a l <= x)%R /\ In (lmin a l) (a :: l).
Proof.
  unfold lmin. induction l as [|b l [IH1 IH2]]; simpl; [split; [intros x [->|[]]; lra|left; reflexivity]|]. split.
  - intros x [->|[->|H]]; [eapply Rle_trans; [apply Rmin_r|apply IH1; left; reflexivity]|apply Rmin_l|eapply Rle_trans; [apply Rmin_r|apply IH1; right; exact H]].
  - set (q := fold_right Rmin a l) in *. unfold Rmin. destruct (Rle_dec b q); [right; left; reflexivity|]. destruct IH2 as [E|E]; [left; exact E|right; right; exact E].
Qed.
Lemma max_spec a l : (forall x, In x (a :: l) -> x <= lmax a l)%R /\ In (lmax a l) (a :: l).
Proof.
  unfold lmax. induction l as [|b l [IH1 IH2]]; simpl; [split; [intros x [->|[]]; lra|left; reflexivity]|]. split.
  - intros x [->|[->|H]]; [eapply Rle_trans; [apply IH1; left; reflexivity|apply Rmax_r]|apply Rmax_l|eapply Rle_trans; [apply IH1; right; exact H|apply Rmax_r]].
  - set (q := fold_right Rmax a l) in *. unfold Rmax. destruct (Rle_dec b q); [destruct IH2 as [E|E]; [left; exact E|right; right; exact E]|right; left; reflexivity].
Qed.
Theorem C57_normalised v w : normalise v = Some w -> length w = length v /\ (forall x, In x w -> 0 <= x <= 1)%R /\ In 0%R w /\ In 1%R w /\
  (forall i j, i < length v -> j < length v -> (nth i w 0 <= nth j w 0 <-> nth i v 0 <= nth j v 0)%R).
Proof.
  unfold normalise. destruct v as [|a l]; [discriminate|]. set (f := fun x => (x - lmin a l)%R). cbn [map].
  destruct (min_spec a l) as [m1 m2]. destruct (max_spec (f a) (map f l)) as [M1 M2]. set (M := lmax (f a) (map f l)) in *.
  destruct (Req_EM_T M 0) as [E|E]; [discriminate|]. intros H. injection H as <-.
  assert (F0 : forall x, In x (a :: l) -> (0 <= f x <= M)%R).
  { intros x Hx. split; [unfold f; specialize (m1 x Hx); lra|]. apply M1. change (f a :: map f l) with (map f (a :: l)). apply in_map, Hx. }
  assert (HM : (0 < M)%R) by (destruct (F0 a (or_introl eq_refl)); lra).
  assert (HI : (0 < / M)%R) by (apply Rinv_0_lt_compat, HM).
  change (f a / M :: map (fun x => x / M) (map f l))%R with (map (fun x => x / M)%R (map f (a :: l))). rewrite map_map. split; [rewrite map_length; reflexivity|]. split; [|split; [|split]].
  - intros x Hx. apply in_map_iff in Hx as (y & <- & Hy). destruct (F0 y Hy) as [G1 G2]. unfold Rdiv. split; [apply Rmult_le_pos; lra|].
    apply (Rmult_le_reg_r M); [exact HM|]. rewrite Rmult_assoc, Rinv_l by lra. lra.
  - apply in_map_iff. exists (lmin a l). split; [unfold f, Rdiv; ring|exact m2].
  - change (f a :: map f l) with (map f (a :: l)) in M2. apply in_map_iff in M2 as (y & Ey & Hy). apply in_map_iff. exists y. split; [rewrite Ey; field; lra|exact Hy].
  - intros i j Hi Hj. set (g := fun x => (f x / M)%R).
    assert (G : forall k, k < length (a :: l) -> nth k (map g (a :: l)) 0%R = g (nth k (a :: l) 0%R)) by (intros k Hk; rewrite (nth_indep _ 0%R (g 0%R)) by (rewrite map_length; exact Hk); apply (map_nth g)).
    rewrite (G i Hi), (G j Hj). unfold g, f, Rdiv. split; intros Q; [apply Rmult_le_reg_r in Q; [lra|exact HI]|apply Rmult_le_compat_r; lra].
Qed.
Theorem C57_constant_refuted c n : normalise (repeat c (S n)) = None.
Proof.
  assert (F : forall f : R -> R, map f (repeat c n) = repeat (f c) n) by (intros f; induction n; simpl; [reflexivity|f_equal; assumption]).
  assert (Z : forall op a, op a a = a -> fold_right op a (repeat a n) = a :> R) by (intros op a Ha; induction n as [|k IH]; simpl; [reflexivity|]; assert (IH' : fold_right op a (repeat a k) = a) by (apply IH; intros f; clear; induction k; simpl; [reflexivity|f_equal; assumption]); rewrite IH'; exact Ha).
  cbn [repeat]. unfold normalise, lmin, lmax. cbn [map]. rewrite Z by (unfold Rmin; destruct (Rle_dec c c); reflexivity). rewrite F, Z by (unfold Rmax; destruct (Rle_dec (c - c) (c - c)); reflexivity).
  destruct (Req_EM_T (c - c) 0); [reflexivity|lra].
Qed.
Example C57_normalised_ex : normalise [1%R; 3%R; 2%R] <> None.
Proof.
  unfold normalise. cbn [map]. set (m := lmin 1 [3%R; 2%R]). destruct (max_spec (1 - m) [(3 - m)%R; (2 - m)%R]) as [M1 _].
  pose proof (M1 (1 - m)%R ltac:(simpl; tauto)). pose proof (M1 (3 - m)%R ltac:(simpl; tauto)). destruct (min_spec 1 [3%R; 2%R]) as [m1 _]. pose proof (m1 1%R ltac:(simpl; tauto)). fold m in H1.
  destruct (Req_EM_T _ 0) as [E|E]; [lra|discriminate].
Qed.
Example C57_ex : exists im, tiledict (mkdict 2 3 1 5 (fun i j _ k => INR (i + j + k))) (Some [(2, 3, 2); (1, 2, 3)]) = Some (5, 11, im).
Proof. eexists. reflexivity. Qed.
Example C57_ex_ok : sizes_ok (mkdict 2 3 1 5 (fun i j _ k => INR (i + j + k))) (Some [(2, 3, 2); (1, 2, 3)]).
Proof. split; [reflexivity|]. repeat constructor; cbn; lia. Qed.
Print Assumptions C57_tiling. Print Assumptions C57_grid. Print Assumptions C57_defined. Print Assumptions C57_normalised. Print Assumptions C57_constant_refuted.
