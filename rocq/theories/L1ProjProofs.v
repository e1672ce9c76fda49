Require Import String List Reals Lra Lia Arith Bool Sorted Permutation.
Require Import Verif.RVec Verif.ProxModel Verif.ProxSpec Verif.ProxProofs Verif.L1ProjModel.
Import ListNotations.
Local Open Scope R_scope.

Lemma sum_list_app a b : sum_list (a ++ b) = sum_list a + sum_list b.
Proof. induction a as [|x a IH]; simpl; [ring|]. rewrite IH. ring. Qed.

Lemma sum_list_perm a b : Permutation a b -> sum_list a = sum_list b.
Proof. induction 1; simpl; try lra. Qed.

Lemma sum_list_map_seq f n : sum_list (map f (seq 0 n)) = sumn n f.
Proof.
  induction n as [|n IH]; [reflexivity|]. rewrite seq_S, map_app, sum_list_app, IH. simpl. ring.
Qed.

Definition desc (x y : R) : Prop := y <= x.

Lemma insert_perm x l : Permutation (x :: l) (insert_desc x l).
Proof.
  induction l as [|y l IH]; simpl; [auto|]. destruct (leb y x); [auto|].
  apply perm_trans with (y :: x :: l); [apply perm_swap|]. apply perm_skip. exact IH.
Qed.
Lemma sort_perm l : Permutation l (sort_desc l).
Proof.
  induction l as [|x l IH]; simpl; [auto|]. apply perm_trans with (x :: sort_desc l); [auto|]. apply insert_perm.
Qed.
Lemma insert_sorted x l : StronglySorted desc l -> StronglySorted desc (insert_desc x l).
Proof.
  induction 1 as [|y l Hs IH Hf]; simpl; [repeat constructor|].
  destruct (leb y x) eqn:E.
  - apply leb_true in E. constructor; [constructor; assumption|]. constructor; [exact E|].
    rewrite Forall_forall in *. intros z Hz. unfold desc in *. specialize (Hf z Hz). lra.
  - apply leb_false in E. constructor; [exact IH|].
    apply Permutation_Forall with (x :: l); [apply insert_perm|].
    constructor; [unfold desc; lra|exact Hf].
Qed.
Lemma sort_sorted l : StronglySorted desc (sort_desc l).
Proof. induction l; simpl; [constructor|]. apply insert_sorted. assumption. Qed.

(** One pass over the sorted list. *)
Fixpoint scan (g : R) (k : nat) (s : R) (l : list R) : list R :=
  match l with
  | [] => []
  | x :: r => if leb (1 / INR (S k) * (s + x - g)) x then x :: scan g (S k) (s + x) r else scan g (S k) (s + x) r
  end.

Lemma selected_scan_gen g k s l :
  map fst (filter (fun xt => leb (snd xt) (fst xt))
    (combine l (map (fun kc => 1 / INR (S (fst kc)) * (snd kc - g)) (combine (seq k (length l)) (cumsum_from s l))))) =
  scan g k s l.
Proof.
  revert k s. induction l as [|x l IH]; intros k s; [reflexivity|].
  cbn [length seq cumsum_from combine map filter scan fst snd].
  destruct (leb (1 / INR (S k) * (s + x - g)) x); cbn [map fst]; rewrite IH; reflexivity.
Qed.
Lemma selected_scan g l : selected g l = scan g 0 0 l.
Proof. apply selected_scan_gen. Qed.

Lemma accept_iff g k s x : leb (1 / INR (S k) * (s + x - g)) x = true <-> s - g <= INR k * x.
Proof.
  rewrite leb_true. rewrite S_INR. pose proof (pos_INR k) as P.
  assert (E : 1 / (INR k + 1) * (s + x - g) <= x <-> s + x - g <= (INR k + 1) * x).
  { split; intros H.
    - apply Rmult_le_compat_l with (r := INR k + 1) in H; [|lra].
      replace ((INR k + 1) * (1 / (INR k + 1) * (s + x - g))) with (s + x - g) in H by (field; lra). lra.
    - apply Rmult_le_reg_l with (INR k + 1); [lra|].
      replace ((INR k + 1) * (1 / (INR k + 1) * (s + x - g))) with (s + x - g) by (field; lra). lra. }
  rewrite E. lra.
Qed.

Lemma scan_reject g l : forall k s, StronglySorted desc l ->
  (forall x, In x l -> INR k * x < s - g) -> scan g k s l = [].
Proof.
  induction l as [|x l IH]; intros k s Hs H; [reflexivity|].
  cbn [scan]. destruct (leb (1 / INR (S k) * (s + x - g)) x) eqn:E.
  - apply accept_iff in E. specialize (H x (or_introl eq_refl)). lra.
  - apply StronglySorted_inv in Hs. destruct Hs as [Hs Hf]. apply IH; [exact Hs|].
    intros y Hy. rewrite Forall_forall in Hf. specialize (Hf y Hy). unfold desc in Hf.
    pose proof (H x (or_introl eq_refl)) as Hx. rewrite S_INR. pose proof (pos_INR k).
    assert (INR k * y <= INR k * x) by (apply Rmult_le_compat_l; assumption). lra.
Qed.

Lemma scan_spec g l : forall k s, StronglySorted desc l ->
  exists suf, l = scan g k s l ++ suf /\
    (forall x, In x (scan g k s l) -> s + sum_list (scan g k s l) - g <= INR (k + length (scan g k s l)) * x) /\
    (forall x, In x suf -> INR (k + length (scan g k s l)) * x <= s + sum_list (scan g k s l) - g).
Proof.
  induction l as [|x l IH]; intros k s Hs.
  - exists []. simpl. repeat split; intros; contradiction.
  - pose proof Hs as Hs0. apply StronglySorted_inv in Hs. destruct Hs as [Hs Hf]. rewrite Forall_forall in Hf.
    destruct (leb (1 / INR (S k) * (s + x - g)) x) eqn:E.
    + pose proof E as E'. apply accept_iff in E'.
      assert (Sc : scan g k s (x :: l) = x :: scan g (S k) (s + x) l) by (cbn [scan]; rewrite E; reflexivity).
      rewrite Sc.
      destruct (IH (S k) (s + x) Hs) as (suf & E1 & H1 & H2).
      set (sel := scan g (S k) (s + x) l) in *.
      replace (k + length (x :: sel))%nat with (S k + length sel)%nat by (simpl; lia).
      replace (s + sum_list (x :: sel) - g) with (s + x + sum_list sel - g) by (simpl; ring).
      exists suf. split; [simpl; rewrite <- E1; reflexivity|split; [|exact H2]].
      intros z [->|Hz]; [|apply H1; exact Hz].
      destruct sel as [|y sel'] eqn:Q.
      * simpl. rewrite Nat.add_0_r. rewrite S_INR in *. pose proof (pos_INR k).
        cbn [sum_list fold_right]. destruct k; simpl in *; lra.
      * assert (Hy : In y (y :: sel')) by (left; reflexivity).
        pose proof (H1 y Hy) as Hy1.
        assert (D : y <= z).
        { apply (Hf y). rewrite E1. apply in_or_app. left. exact Hy. }
        pose proof (pos_INR (S k + length (y :: sel'))).
        assert (INR (S k + length (y :: sel')) * y <= INR (S k + length (y :: sel')) * z)
          by (apply Rmult_le_compat_l; assumption). lra.
    + assert (Rj : INR k * x < s - g).
      { destruct (Rlt_dec (INR k * x) (s - g)) as [L|L]; [exact L|]. exfalso.
        assert (A : s - g <= INR k * x) by lra. apply accept_iff in A. rewrite A in E. discriminate. }
      assert (All : forall y, In y (x :: l) -> INR k * y < s - g).
      { intros y [<-|Hy]; [exact Rj|]. specialize (Hf y Hy). unfold desc in Hf. pose proof (pos_INR k).
        assert (INR k * y <= INR k * x) by (apply Rmult_le_compat_l; assumption). lra. }
      rewrite (scan_reject g (x :: l) k s Hs0 All). exists (x :: l). split; [reflexivity|split].
      * intros y [].
      * intros y Hy. simpl. rewrite Nat.add_0_r. specialize (All y Hy). lra.
Qed.

Lemma selected_nonempty g x l : 0 <= g -> scan g 0 0 (x :: l) <> [].
Proof.
  intros Hg. cbn [scan]. assert (E : leb (1 / INR 1 * (0 + x - g)) x = true) by (apply accept_iff; simpl; lra).
  rewrite E. discriminate.
Qed.

Lemma sum_excess_app t a b :
  (forall x, In x a -> t <= x) -> (forall x, In x b -> x <= t) ->
  sum_list (map (fun x => Rmax 0 (x - t)) (a ++ b)) = sum_list a - INR (length a) * t.
Proof.
  intros Ha Hb. rewrite map_app, sum_list_app.
  assert (B : sum_list (map (fun x => Rmax 0 (x - t)) b) = 0).
  { clear Ha. induction b as [|x b IH]; [reflexivity|]. simpl.
    rewrite Rmax_left by (specialize (Hb x (or_introl eq_refl)); lra).
    rewrite IH; [ring|]. intros y Hy. apply Hb. right. exact Hy. }
  rewrite B. clear B Hb. induction a as [|x a IH]; [simpl; ring|].
  cbn [map sum_list fold_right]. cbn [length]. rewrite S_INR.
  rewrite Rmax_right by (specialize (Ha x (or_introl eq_refl)); lra).
  fold (sum_list (map (fun x => Rmax 0 (x - t)) a)). fold (sum_list a).
  assert (IH' : sum_list (map (fun x0 : R => Rmax 0 (x0 - t)) a) + 0 = sum_list a - INR (length a) * t)
    by (apply IH; intros y Hy; apply Ha; right; exact Hy).
  lra.
Qed.

Lemma sum_list_nonneg l : (forall x, In x l -> 0 <= x) -> 0 <= sum_list l.
Proof.
  induction l as [|x l IH]; intros H; simpl; [lra|].
  assert (0 <= x) by (apply H; left; reflexivity).
  assert (0 <= sum_list l) by (apply IH; intros; apply H; right; assumption). unfold sum_list in *. lra.
Qed.

(** The threshold has the defining property. *)
Lemma sortsum_threshold g l : 0 <= g -> l <> [] -> (forall x, In x l -> 0 <= x) ->
  0 <= sortsum_t g l /\
  (sum_list l <= g -> sortsum_t g l = 0) /\
  (g <= sum_list l -> sum_list (map (fun x => Rmax 0 (x - sortsum_t g l)) l) = g).
Proof.
  intros Hg Hl Hp. unfold sortsum_t. rewrite selected_scan.
  destruct (scan_spec g (sort_desc l) 0 0 (sort_sorted l)) as (suf & E & H1 & H2).
  set (sel := scan g 0 0 (sort_desc l)) in *. simpl in H1, H2.
  assert (Hne : sel <> []).
  { unfold sel. pose proof (sort_perm l) as P. destruct (sort_desc l) as [|x r].
    - apply Permutation_sym, Permutation_nil in P. contradiction.
    - apply selected_nonempty. exact Hg. }
  assert (HK : 0 < INR (length sel)).
  { apply lt_0_INR. destruct sel; [contradiction|simpl; lia]. }
  set (t := (sum_list sel - g) / INR (length sel)).
  assert (Ht : INR (length sel) * t = sum_list sel - g) by (unfold t; field; lra).
  assert (A1 : forall x, In x sel -> t <= x).
  { intros x Hx. apply Rmult_le_reg_l with (INR (length sel)); [exact HK|]. rewrite Ht. specialize (H1 x Hx). lra. }
  assert (A2 : forall x, In x suf -> x <= t).
  { intros x Hx. apply Rmult_le_reg_l with (INR (length sel)); [exact HK|]. rewrite Ht. specialize (H2 x Hx). lra. }
  assert (Pos : forall x, In x (sel ++ suf) -> 0 <= x).
  { intros x Hx. apply Hp. rewrite <- E in Hx. apply Permutation_in with (2 := Hx). apply Permutation_sym, sort_perm. }
  assert (Sum : sum_list l = sum_list sel + sum_list suf).
  { rewrite (sum_list_perm _ _ (sort_perm l)), E at 1. apply sum_list_app. }
  assert (Sn : 0 <= sum_list suf) by (apply sum_list_nonneg; intros; apply Pos, in_or_app; right; assumption).
  split; [apply Rmax_l|split].
  - intros Hin. apply Rmax_left. fold t. unfold t. apply Rmult_le_reg_l with (INR (length sel)); [exact HK|].
    fold t. rewrite Ht. lra.
  - intros Hout. fold t.
    assert (T0 : 0 <= t).
    { destruct (Rle_dec 0 t) as [L|L]; [exact L|]. exfalso. assert (L' : t < 0) by lra.
      assert (suf = []).
      { destruct suf as [|x suf]; [reflexivity|]. specialize (A2 x (or_introl eq_refl)).
        assert (0 <= x) by (apply Pos, in_or_app; right; left; reflexivity). lra. }
      subst suf. simpl in Sum. assert (INR (length sel) * t < 0) by nra. lra. }
    rewrite Rmax_right by exact T0.
    rewrite (sum_list_perm _ (map (fun x => Rmax 0 (x - t)) (sel ++ suf))).
    + rewrite sum_excess_app by assumption. lra.
    + rewrite <- E. apply Permutation_map. apply sort_perm.
Qed.

(** ** Vectors *)
Lemma prox_l1_abs v t i : 0 <= t -> Rabs (prox_l1 v (fun _ => t) i) = Rmax 0 (Rabs (v i) - t).
Proof.
  intros Ht. unfold prox_l1. destruct (Rtotal_order (v i) 0) as [H|[H|H]].
  - rewrite sgn_neg by exact H. rewrite Rmax_comm. pose proof (Rmax_l 0 (Rabs (v i) - t)).
    replace (-1 * Rmax 0 (Rabs (v i) - t)) with (- Rmax 0 (Rabs (v i) - t)) by ring.
    rewrite Rabs_Ropp, Rabs_right; lra.
  - rewrite H, sgn_0, Rabs_R0, Rmult_0_l, Rabs_R0. rewrite Rmax_left; lra.
  - rewrite sgn_pos by exact H. rewrite Rmax_comm. pose proof (Rmax_l 0 (Rabs (v i) - t)).
    rewrite Rmult_1_l, Rabs_right; lra.
Qed.

(** Soft thresholding with a threshold at which the l1 norm is gamma gives the nearest point. *)
Lemma threshold_nearest n v t g : 0 <= t -> sumn n (fun i => Rmax 0 (Rabs (v i) - t)) = g ->
  nearest n (fun x => nrm1 n x <= g) v (prox_l1 v (fun _ => t)).
Proof.
  intros Ht Hg.
  assert (N : nrm1 n (prox_l1 v (fun _ => t)) = g).
  { unfold nrm1. rewrite <- Hg. apply sumn_ext. intros i _. apply prox_l1_abs. exact Ht. }
  apply variational_nearest; [lra|].
  intros x Hx. pose proof (prox_l1_subgrad n v (fun _ => t) (fun _ _ => Ht) x) as H.
  unfold wl1 in H.
  assert (W : forall y, sumn n (fun i => Rabs (t * y i)) = t * nrm1 n y).
  { intros y. unfold nrm1. rewrite <- sumn_scal. apply sumn_ext. intros i _. rewrite Rabs_mult, (Rabs_right t); lra. }
  rewrite !W, N in H. assert (t * nrm1 n x <= t * g) by (apply Rmult_le_compat_l; assumption). lra.
Qed.

Lemma nearest_self n (C : (nat -> R) -> Prop) v : C v -> nearest n C v v.
Proof.
  intros Hc. apply variational_nearest; [exact Hc|]. intros x _.
  assert (Z : dot n (vsub v v) (vsub x v) = 0) by (apply sumn_0; intros; unfold vsub; ring). lra.
Qed.

Lemma norm_l1_nrm1 n x : norm_l1 n x = nrm1 n x.
Proof. reflexivity. Qed.

Definition avs (n : nat) (v : nat -> R) : list R := map (fun i => Rabs (v i)) (seq 0 n).
Lemma avs_sum n v : sum_list (avs n v) = nrm1 n v.
Proof. apply sum_list_map_seq. Qed.
Lemma avs_pos n v x : In x (avs n v) -> 0 <= x.
Proof. intros H. apply in_map_iff in H. destruct H as (i & <- & _). apply Rabs_pos. Qed.
Lemma avs_ne n v : (0 < n)%nat -> avs n v <> [].
Proof. intros Hn. unfold avs. destruct n; [lia|]. simpl. discriminate. Qed.

Lemma sortsum_soft v t i : 0 <= t ->
  sgn (v i) * (if ltb t (Rabs (v i)) then Rabs (v i) - t else 0) = prox_l1 v (fun _ => t) i.
Proof.
  intros Ht. unfold prox_l1. destruct (ltb t (Rabs (v i))) eqn:E.
  - apply ltb_true in E. rewrite Rmax_left by lra. reflexivity.
  - apply ltb_false in E. rewrite Rmax_right by lra. reflexivity.
Qed.

Lemma nearest_ext n (C : (nat -> R) -> Prop) v p q : (forall x y, (forall i, (i < n)%nat -> x i = y i) -> C x -> C y) ->
  (forall i, (i < n)%nat -> p i = q i) -> nearest n C v p -> nearest n C v q.
Proof.
  intros HC E (H1 & H2 & H3). split; [apply (HC p q E H1)|split].
  - intros x Hx. rewrite (nrm_ext n (vsub q v) (vsub p v)); [apply H2; exact Hx|]. intros i Hi. unfold vsub. rewrite E; auto.
  - intros r Hr Hm i Hi. rewrite <- E by exact Hi. apply H3; assumption.
Qed.

Lemma l1ball_ext n g x y : (forall i, (i < n)%nat -> x i = y i) -> nrm1 n x <= g -> nrm1 n y <= g.
Proof.
  intros E H. replace (nrm1 n y) with (nrm1 n x); [exact H|]. apply sumn_ext. intros. rewrite E; auto.
Qed.

Lemma sortsum_ok b n v g : (0 < n)%nat -> 0 <= g ->
  nearest n (fun x => nrm1 n x <= g) v (proj_l1_sortsum b n v g) /\
  (nrm1 n v <= g -> forall i, (i < n)%nat -> proj_l1_sortsum b n v g i = v i).
Proof.
  intros Hn Hg. unfold proj_l1_sortsum. rewrite norm_l1_nrm1.
  destruct (sortsum_threshold g (avs n v) Hg (avs_ne n v Hn) (avs_pos n v)) as (T0 & Tin & Tout).
  rewrite avs_sum in Tin, Tout. fold (avs n v).
  destruct (Rle_dec (nrm1 n v) g) as [L|L].
  - assert (E : forall i, (if (b && leb (nrm1 n v) g)%bool then v else
       fun i => sgn (v i) * (if ltb (sortsum_t g (avs n v)) (Rabs (v i)) then Rabs (v i) - sortsum_t g (avs n v) else 0)) i = v i).
    { intros i. destruct (b && leb (nrm1 n v) g)%bool; [reflexivity|]. rewrite (Tin L).
      destruct (ltb 0 (Rabs (v i))) eqn:F.
      - rewrite Rminus_0_r. apply sgn_abs.
      - apply ltb_false in F. assert (v i = 0).
        { destruct (Req_dec (v i) 0) as [Z|Z]; [exact Z|]. pose proof (Rabs_pos_lt _ Z). lra. }
        rewrite H, sgn_0. ring. }
    split; [|intros _ i _; apply E].
    apply (nearest_ext n _ v v); [apply l1ball_ext|intros; symmetry; apply E|]. apply nearest_self. exact L.
  - assert (F : leb (nrm1 n v) g = false) by (apply leb_false; lra). rewrite F, andb_false_r.
    split; [|intros; contradiction].
    apply (nearest_ext n _ v (prox_l1 v (fun _ => sortsum_t g (avs n v)))); [apply l1ball_ext| |].
    + intros i _. symmetry. apply sortsum_soft. exact T0.
    + apply threshold_nearest; [exact T0|].
      assert (Lg : g <= nrm1 n v) by lra. specialize (Tout Lg). set (t := sortsum_t g (avs n v)) in *.
      unfold avs in Tout. rewrite map_map, sum_list_map_seq in Tout. exact Tout.
Qed.

Lemma cont_ext f g : (forall x, f x = g x) -> continuity f -> continuity g.
Proof.
  intros E H x e He. destruct (H x e He) as (d & Hd & K). exists d. split; [exact Hd|].
  intros y Hy. rewrite <- !E. apply K. exact Hy.
Qed.

Lemma root_fn_continuous n v g : continuity (root_fn n v g).
Proof.
  unfold root_fn.
  assert (E : forall x, / 2 * (x + Rabs x) = Rmax 0 x).
  { intros x. destruct (Rle_dec 0 x) as [L|L].
    - rewrite Rabs_right, Rmax_right; lra.
    - rewrite Rabs_left, Rmax_left; lra. }
  assert (K : continuity (fun t => sumn n (fun i => Rmax 0 (Rabs (v i) - t)))).
  { induction n as [|n IH].
    - simpl. apply continuity_const. intros x y. reflexivity.
    - change (continuity (fun t => sumn n (fun i => Rmax 0 (Rabs (v i) - t)) + Rmax 0 (Rabs (v n) - t))).
      apply (continuity_plus (fun t => sumn n (fun i => Rmax 0 (Rabs (v i) - t))) (fun t => Rmax 0 (Rabs (v n) - t))).
      + exact IH.
      + assert (D : continuity (fun t => Rabs (v n) - t)).
        { apply (continuity_minus (fun _ => Rabs (v n)) id);
            [apply continuity_const; intros x y; reflexivity|apply derivable_continuous, derivable_id]. }
        apply (cont_ext (fun t => / 2 * ((Rabs (v n) - t) + Rabs (Rabs (v n) - t)))); [intros; apply E|].
        apply (continuity_scal (fun t => Rabs (v n) - t + Rabs (Rabs (v n) - t))).
        apply (continuity_plus (fun t => Rabs (v n) - t) (fun t => Rabs (Rabs (v n) - t))); [exact D|].
        apply (continuity_comp (fun t => Rabs (v n) - t) Rabs); [exact D|]. exact Rcontinuity_abs. }
  apply (continuity_minus (fun t => sumn n (fun i => Rmax 0 (Rabs (v i) - t))) (fun _ => g)); [exact K|].
  apply continuity_const. intros x y. reflexivity.
Qed.

Lemma bracket n v g : (0 < n)%nat -> 0 <= g -> g < nrm1 n v ->
  let m := vmax n (fun i => Rabs (v i)) in
  0 < root_fn n v g 0 /\ root_fn n v g m <= 0.
Proof.
  intros Hn Hg H m. unfold root_fn. split.
  - replace (sumn n (fun i => Rmax 0 (Rabs (v i) - 0))) with (nrm1 n v); [lra|].
    apply sumn_ext. intros i _. pose proof (Rabs_pos (v i)). rewrite Rmax_right; lra.
  - replace (sumn n (fun i => Rmax 0 (Rabs (v i) - m))) with 0; [lra|]. symmetry.
    apply sumn_0. intros i Hi. apply Rmax_left. pose proof (vmax_ge n (fun i => Rabs (v i)) i Hi). unfold m. simpl in H0. lra.
Qed.

Lemma scalarroot_ok br n v g : root_finder_at br (root_fn n v g) 0 (vmax n (fun i => Rabs (v i))) -> (0 < n)%nat -> 0 <= g ->
  nearest n (fun x => nrm1 n x <= g) v (proj_l1_scalarroot br n v g) /\
  (nrm1 n v <= g -> forall i, proj_l1_scalarroot br n v g i = v i).
Proof.
  intros Hbr Hn Hg. unfold proj_l1_scalarroot. rewrite norm_l1_nrm1.
  destruct (leb (nrm1 n v) g) eqn:E.
  - apply leb_true in E. split; [apply nearest_self; exact E|reflexivity].
  - apply leb_false in E. split; [|intros; lra].
    destruct (bracket n v g Hn Hg E) as [B1 B2]. simpl in B2.
    destruct (Hbr (root_fn_continuous n v g) (vmax_nonneg n v)) as [R1 R2].
    { nra. }
    apply threshold_nearest; [lra|]. unfold root_fn in R2 at 1. lra.
Qed.
