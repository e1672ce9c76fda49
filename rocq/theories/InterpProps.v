(** C54: interpolation points and Lanczos filters; C55: regression by linear programming. *)
Require Import List Arith ZArith Reals Bool Lra Lia Psatz.
Require Import Verif.RVec Verif.NdIndex Verif.NdSum Verif.InterpModel Verif.InterpSpec Verif.InterpProofs.
Import ListNotations.
Local Open Scope R_scope.

Lemma Rabs_bd x a : Rabs x <= a -> - a <= x <= a.
Proof. unfold Rabs. destruct (Rcase_abs x); lra. Qed.

(** N points including zero: i-th point (i - (N-1)/2)/N, so the spacing is 1/N; all in (-1/2, 1/2]; and modulo 1 they are exactly 0, 1/N, ..., (N-1)/N. *)
Theorem C54_points N : (0 < N)%Z -> let p := interpolation_points N true in
  length p = Z.to_nat N /\
  (forall i, (i < length p)%nat -> nth i p 0 = IZR (Z.of_nat i - (N - 1) / 2) / IZR N) /\
  (forall i, (i < length p)%nat -> -1/2 < nth i p 0 <= 1/2) /\ In 0 p /\
  (forall r, (0 <= r < N)%Z -> exists i, (i < length p)%nat /\ (exists m : Z, nth i p 0 = IZR r / IZR N + IZR m) /\
     forall j (m' : Z), (j < length p)%nat -> nth j p 0 = IZR r / IZR N + IZR m' -> j = i).
Proof.
  intros HN p. set (h := ((N - 1) / 2)%Z). assert (Hh : (N / 2 + 1 - - h = N)%Z).
  { unfold h. pose proof (Z.div_mod N 2 ltac:(lia)). pose proof (Z.div_mod (N - 1) 2 ltac:(lia)). pose proof (Z.mod_pos_bound N 2 ltac:(lia)). pose proof (Z.mod_pos_bound (N - 1) 2 ltac:(lia)). lia. }
  assert (Hb : (N - 2 <= 2 * h <= N - 1)%Z). { unfold h. pose proof (Z.div_mod (N - 1) 2 ltac:(lia)). pose proof (Z.mod_pos_bound (N - 1) 2 ltac:(lia)). lia. }
  assert (L : length p = Z.to_nat N) by (unfold p, interpolation_points; rewrite map_length, arange_length; fold h; f_equal; lia).
  assert (HR : 0 < IZR N) by (apply IZR_lt, HN).
  assert (P : forall i, (i < length p)%nat -> nth i p 0 = IZR (Z.of_nat i - h) / IZR N).
  { intros i Hi. unfold p, interpolation_points in *. rewrite map_length in Hi. rewrite (nth_indep _ 0 (IZR 0 / IZR N)) by (rewrite map_length; exact Hi).
    rewrite (map_nth (fun k => IZR k / IZR N)). rewrite arange_nth by exact Hi. fold h. f_equal. f_equal. lia. }
  split; [exact L|]. split; [exact P|]. split; [|split].
  - intros i Hi. rewrite (P i Hi). rewrite L in Hi.
    assert (K1 : IZR (- N) < IZR (2 * (Z.of_nat i - h))) by (apply IZR_lt; lia). assert (K2 : IZR (2 * (Z.of_nat i - h)) <= IZR N) by (apply IZR_le; lia).
    rewrite opp_IZR in K1. rewrite mult_IZR in K1, K2. set (q := IZR (Z.of_nat i - h)) in *.
    split; apply Rmult_lt_reg_r with (IZR N) || apply Rmult_le_reg_r with (IZR N); try exact HR; unfold Rdiv; rewrite Rmult_assoc, ?(Rmult_assoc q), ?Rinv_l by lra; lra.
  - assert (Z0 : nth (Z.to_nat h) p 0 = 0) by (rewrite P by lia; rewrite Z2Nat.id by lia; rewrite Z.sub_diag; unfold Rdiv; ring).
    rewrite <- Z0. apply nth_In. lia.
  - intros r Hr. assert (Q : forall i (m : Z), (i < length p)%nat -> (nth i p 0 = IZR r / IZR N + IZR m <-> (Z.of_nat i - h = r + m * N)%Z)).
    { intros i m Hi. rewrite (P i Hi). split; intros H.
      - apply eq_IZR. rewrite plus_IZR, mult_IZR. apply (Rmult_eq_compat_r (IZR N)) in H. unfold Rdiv in H. rewrite Rmult_plus_distr_r, !Rmult_assoc, Rinv_l in H by lra. lra.
      - rewrite H, plus_IZR, mult_IZR. field. lra. }
    set (m := if (r <=? N / 2)%Z then 0%Z else (-1)%Z). assert (D2 : (N / 2 + 1 = N - h)%Z) by lia.
    exists (Z.to_nat (r + m * N + h)).
    assert (Hi : (Z.to_nat (r + m * N + h) < length p)%nat) by (rewrite L; unfold m; destruct (Z.leb_spec r (N / 2)); lia).
    assert (Hi2 : Z.of_nat (Z.to_nat (r + m * N + h)) = (r + m * N + h)%Z) by (unfold m; destruct (Z.leb_spec r (N / 2)); lia).
    split; [exact Hi|]. split; [exists m; apply Q; [exact Hi|lia]|].
    intros j m' Hj E. apply Q in E; [|exact Hj]. rewrite L in Hj. assert (m' = m); [|subst; lia].
    unfold m in *. destruct (Z.leb_spec r (N / 2)); nia.
Qed.
(** N points without zero: all in [-1/2, 1/2], and modulo 1 exactly 1/(N+1), ..., N/(N+1). *)
Theorem C54_points_nozero N : (0 < N)%Z -> let p := interpolation_points N false in
  length p = Z.to_nat N /\ (forall x, In x p -> -1/2 <= x <= 1/2 /\ x <> 0) /\
  (forall i, (S i < length p)%nat -> nth (S i) p 0 - nth i p 0 = (if Z.eqb (Z.of_nat i) (N / 2 - 1) then 2 else 1) / (IZR N + 1)) /\
  (forall r, (0 < r < N + 1)%Z -> exists x, In x p /\ exists m : Z, x = IZR r / (IZR N + 1) + IZR m).
Proof.
  intros HN p. set (h := (N / 2)%Z). assert (Hh : (2 * h <= N <= 2 * h + 1)%Z). { unfold h. pose proof (Z.div_mod N 2 ltac:(lia)). pose proof (Z.mod_pos_bound N 2 ltac:(lia)). lia. }
  assert (Hg : ((N + 1) / 2 = N - h)%Z). { pose proof (Z.div_mod (N + 1) 2 ltac:(lia)). pose proof (Z.mod_pos_bound (N + 1) 2 ltac:(lia)). unfold h in *. pose proof (Z.div_mod N 2 ltac:(lia)). pose proof (Z.mod_pos_bound N 2 ltac:(lia)). lia. }
  assert (HR : 0 < IZR N) by (apply IZR_lt, HN). set (l := arange (- h) 0 ++ arange 1 ((N + 1) / 2 + 1)).
  assert (Ep : p = map (fun k => IZR k / (IZR N + 1)) l) by reflexivity.
  assert (L : length l = Z.to_nat N) by (unfold l; rewrite app_length, !arange_length; lia).
  assert (P : forall i, (i < length l)%nat -> nth i l 0%Z = (if (Z.of_nat i <? h)%Z then Z.of_nat i - h else Z.of_nat i - h + 1)%Z).
  { intros i Hi. unfold l in *. destruct (Z.ltb_spec (Z.of_nat i) h) as [E|E].
    - rewrite app_nth1 by (rewrite arange_length; lia). rewrite arange_nth by (rewrite arange_length; lia). lia.
    - rewrite app_length, !arange_length in Hi. rewrite app_nth2 by (rewrite arange_length; lia). rewrite arange_nth by (rewrite !arange_length; lia). rewrite arange_length. lia. }
  split; [rewrite Ep, map_length; exact L|]. split; [|split].
  - intros x Hx. rewrite Ep in Hx. apply in_map_iff in Hx. destruct Hx as (k & <- & Hk). unfold l in Hk. rewrite in_app_iff, !arange_in in Hk.
    assert (K1 : IZR (- (N + 1)) <= IZR (2 * k)) by (apply IZR_le; lia). assert (K2 : IZR (2 * k) <= IZR (N + 1)) by (apply IZR_le; lia). rewrite opp_IZR, plus_IZR in *. rewrite mult_IZR in K1, K2.
    assert (IZR k <> 0) by (apply not_0_IZR; lia). split.
    + split; apply Rmult_le_reg_r with (IZR N + 1); try lra; unfold Rdiv; rewrite Rmult_assoc, ?(Rmult_assoc (IZR k)), ?Rinv_l by lra; lra.
    + unfold Rdiv. apply Rmult_integral_contrapositive_currified; [exact H|]. apply Rinv_neq_0_compat. lra.
  - intros i Hi. rewrite Ep in *. rewrite map_length in Hi.
    rewrite (nth_indep _ 0 (IZR 0 / (IZR N + 1))) by (rewrite map_length; exact Hi). rewrite (nth_indep _ 0 (IZR 0 / (IZR N + 1)) (n := i)) by (rewrite map_length; lia).
    rewrite !(map_nth (fun k => IZR k / (IZR N + 1))). rewrite !P by lia.
    destruct (Z.eqb_spec (Z.of_nat i) (h - 1)) as [E|E].
    + rewrite (proj2 (Z.ltb_ge (Z.of_nat (S i)) h)) by lia. rewrite (proj2 (Z.ltb_lt (Z.of_nat i) h)) by lia.
      replace (Z.of_nat (S i) - h + 1)%Z with (Z.of_nat i - h + 2)%Z by lia. rewrite plus_IZR. field. lra.
    + destruct (Z.ltb_spec (Z.of_nat (S i)) h), (Z.ltb_spec (Z.of_nat i) h); try lia.
      * replace (Z.of_nat (S i) - h)%Z with (Z.of_nat i - h + 1)%Z by lia. rewrite plus_IZR. field. lra.
      * replace (Z.of_nat (S i) - h + 1)%Z with (Z.of_nat i - h + 1 + 1)%Z by lia. rewrite (plus_IZR _ 1). field. lra.
  - intros r Hr. destruct (Z_le_gt_dec r (N - h)) as [E|E].
    + exists (IZR r / (IZR N + 1)). split; [rewrite Ep; apply (in_map (fun k => IZR k / (IZR N + 1))); unfold l; rewrite in_app_iff, !arange_in; lia|]. exists 0%Z. lra.
    + exists (IZR (r - (N + 1)) / (IZR N + 1)). split; [rewrite Ep; apply (in_map (fun k => IZR k / (IZR N + 1))); unfold l; rewrite in_app_iff, !arange_in; lia|]. exists (-1)%Z. rewrite minus_IZR, plus_IZR. field. lra.
Qed.
(** The kernel. *)
Theorem C54_kernel a : (0 < a)%nat ->
  (forall x, lanczos_kernel a (- x) = lanczos_kernel a x) /\ (forall x, INR a <= Rabs x -> lanczos_kernel a x = 0) /\
  lanczos_kernel a 0 = 1 /\ (forall z, z <> 0%Z -> lanczos_kernel a (IZR z) = 0) /\ (forall x, Rabs (lanczos_kernel a x) <= 1) /\
  (forall x, 0 < Rabs x < 1 -> (1 < a)%nat -> 0 < lanczos_kernel a x < 1).
Proof.
  intros Ha. assert (HA : 0 < INR a) by (apply lt_0_INR; exact Ha). split; [apply lanczos_even|]. split; [|split; [|split; [|split]]].
  - intros x Hx. apply lanczos_out. unfold Rabs in Hx. destruct (Rcase_abs x); lra.
  - rewrite (lanczos_int a 0 Ha). reflexivity.
  - intros z Hz. rewrite (lanczos_int a z Ha). apply Z.eqb_neq in Hz. rewrite Hz. reflexivity.
  - apply lanczos_bound.
  - intros x Hx H1.
    assert (K : forall y, 0 < y < 1 -> 0 < lanczos_kernel a y < 1).
    { intros y Hy. assert (1 < INR a) by (change 1 with (INR 1); apply lt_INR; exact H1). rewrite lanczos_in by lra.
      assert (0 < y / INR a) by (apply Rdiv_lt_0_compat; lra). assert (y / INR a < 1) by (apply (Rmult_lt_reg_r (INR a)); [lra|]; unfold Rdiv; rewrite Rmult_assoc, Rinv_l by lra; lra).
      pose proof (sinc_pos y ltac:(lra)). pose proof (sinc_pos (y / INR a) ltac:(lra)).
      assert (S1 : sinc y < 1). { pose proof (sinc_decr (y / 2) y ltac:(lra) ltac:(lra)). pose proof (sinc_bound (y / 2)) as B. apply Rabs_bd in B. lra. }
      pose proof (sinc_bound (y / INR a)) as B. apply Rabs_bd in B. split; [apply Rmult_lt_0_compat; assumption|]. nra. }
    unfold Rabs in Hx. destruct (Rcase_abs x); [rewrite <- lanczos_even|]; apply K; lra.
Qed.
(** The filters exist (the normalising sum is positive, in particular never zero) and sum to one, in any number of dimensions: constants are
    reproduced. At a sample position the filter is the unit impulse. *)
Theorem C54_filters_normalised a x : (0 < a)%nat -> -1 <= x <= 1 ->
  0 < sumn (2 * a + 1) (fun k => lanczos_kernel a (INR k - INR a + x)) /\ sumn (2 * a + 1) (filter1 a x) = 1.
Proof.
  intros Ha Hx. pose proof (sum_pos a x Ha Hx) as P. split; [exact P|]. unfold filter1, Rdiv. rewrite sumn_scal_r. apply Rinv_r. lra.
Qed.
Theorem C54_filters_sum_one a xs : (0 < a)%nat -> points_ok xs = true -> ndsum (map (fun _ => (2 * a + 1)%nat) xs) (filters a xs) = 1.
Proof.
  intros Ha. induction xs as [|x xs IH]; intros H; [reflexivity|]. unfold points_ok in H. cbn [forallb] in H. apply andb_true_iff in H. destruct H as [H1 H2].
  assert (Hx : -1 <= x <= 1) by (destruct (Rle_dec (-1) x); [destruct (Rle_dec x 1); [lra|discriminate]|discriminate]). specialize (IH H2).
  cbn [map ndsum filters]. rewrite (sumn_ext _ _ (filter1 a x)); [apply C54_filters_normalised; assumption|].
  intros k _. transitivity (filter1 a x k * ndsum (map (fun _ => (2 * a + 1)%nat) xs) (filters a xs)); [apply ndsum_scal|rewrite IH; ring].
Qed.
Theorem C54_filters_at_samples a (z : Z) k : (0 < a)%nat -> (-1 <= z <= 1)%Z -> (k < 2 * a + 1)%nat ->
  filter1 a (IZR z) k = if Z.eqb (Z.of_nat k) (Z.of_nat a - z) then 1 else 0.
Proof.
  intros Ha Hz Hk. unfold filter1. rewrite (sum_int a z Ha ltac:(lia)).
  replace (INR k - INR a + IZR z) with (IZR (Z.of_nat k - Z.of_nat a + z)) by (rewrite plus_IZR, minus_IZR, <- !INR_IZR_INZ; reflexivity).
  rewrite (lanczos_int a _ Ha). destruct (Z.eqb_spec (Z.of_nat k - Z.of_nat a + z) 0), (Z.eqb_spec (Z.of_nat k) (Z.of_nat a - z)); try lia; lra.
Qed.
Example C54_ex : interpolation_points 4 true = [-1 / 4; 0 / 4; 1 / 4; 2 / 4] /\ interpolation_points 3 false = [-1 / (3 + 1); 1 / (3 + 1); 2 / (3 + 1)].
Proof. split; reflexivity. Qed.

(** ** C55 *)
Theorem C55_lstabsdev linprog M N A b : lp_solver linprog ->
  match lstabsdev linprog M N A b with
  | Some x => forall y, l1dev M N A b x <= l1dev M N A b y
  | None => forall x, exists y, l1dev M N A b y < l1dev M N A b x
  end.
Proof.
  intros HS. unfold lstabsdev. set (p := lstabsdev_lp M N A b). destruct (HS p) as [H1 H2]. assert (VA : forall z, lp_value p z = sumn M z) by (intros z; apply lp_abs_value).
  assert (Lift : forall y, exists z, lp_feasible p z /\ lp_value p z = l1dev M N A b y /\ forall j, (j < N)%nat -> z (M + j)%nat = y j).
  { intros y. exists (fun j => if Nat.ltb j M then Rabs (resid N A b y j) else y (j - M)%nat).
    assert (E : forall j, (if Nat.ltb (M + j) M then Rabs (resid N A b y (M + j)) else y (M + j - M)%nat) = y j).
    { intros j. rewrite (proj2 (Nat.ltb_ge (M + j) M) ltac:(lia)). f_equal. lia. }
    split; [|split; [|intros j _; apply E]].
    - apply lp_abs_feasible. intros i Hi. rewrite (proj2 (Nat.ltb_lt i M) Hi). right. f_equal. unfold resid. f_equal. apply sumn_ext. intros j _. rewrite E. reflexivity.
    - rewrite VA. apply sumn_ext. intros i Hi. rewrite (proj2 (Nat.ltb_lt i M) Hi). reflexivity. }
  destruct (fst (linprog p)).
  - destruct (H1 eq_refl) as [F O]. intros y. destruct (Lift y) as (z & Fz & Vz & _). specialize (O z Fz). rewrite Vz in O.
    eapply Rle_trans; [|exact O]. rewrite VA. apply sumn_le. apply lp_abs_feasible, F.
  - intros x. specialize (H2 eq_refl). destruct (Lift x) as (z & Fz & Vz & _).
    destruct (Classical_Prop.classic (exists y, l1dev M N A b y < l1dev M N A b x)) as [K|K]; [exact K|]. exfalso. apply (H2 z). split; [exact Fz|]. intros w Fw. rewrite Vz.
    destruct (Rle_lt_dec (l1dev M N A b x) (lp_value p w)) as [L|L]; [exact L|]. exfalso. apply K. exists (fun j => w (M + j)%nat). eapply Rle_lt_trans; [|exact L].
    rewrite VA. apply sumn_le. apply lp_abs_feasible, Fw.
Qed.
Theorem C55_lstmaxdev linprog M N A b : lp_solver linprog -> (0 < M)%nat ->
  match lstmaxdev linprog M N A b with
  | Some x => forall y t u, is_maxdev M N A b x t -> is_maxdev M N A b y u -> t <= u
  | None => forall x t, is_maxdev M N A b x t -> exists y u, is_maxdev M N A b y u /\ u < t
  end.
Proof.
  intros HS HM. unfold lstmaxdev. set (p := lstmaxdev_lp M N A b). destruct (HS p) as [H1 H2]. assert (VA : forall z, lp_value p z = z O) by (intros z; apply lp_max_value).
  assert (Lift : forall y u, is_maxdev M N A b y u -> exists z, lp_feasible p z /\ lp_value p z = u).
  { intros y u [Hu _]. exists (fun j => if Nat.eqb j 0 then u else y (j - 1)%nat). split.
    - apply lp_max_feasible. intros i Hi. cbn [Nat.eqb]. eapply Rle_trans; [|apply (Hu i Hi)]. right. f_equal. unfold resid. f_equal. apply sumn_ext. intros j _. cbn [Nat.add Nat.eqb]. replace (S j - 1)%nat with j by lia. reflexivity.
    - rewrite VA. reflexivity. }
  assert (Mx : forall y, exists u, is_maxdev M N A b y u).
  { intros y. unfold is_maxdev. clear -HM. destruct M as [|m]; [lia|]. clear HM. induction m as [|m (u & H & i & Hi & E)].
    - exists (Rabs (resid N A b y 0)). split; [intros i Hi; replace i with O by lia; lra|exists O; split; [lia|reflexivity]].
    - destruct (Rle_lt_dec u (Rabs (resid N A b y (S m)))) as [L|L].
      + exists (Rabs (resid N A b y (S m))). split; [|exists (S m); split; [lia|reflexivity]]. intros k Hk. destruct (Nat.eq_dec k (S m)) as [->|Nk]; [lra|]. eapply Rle_trans; [apply H; lia|exact L].
      + exists u. split; [|exists i; split; [lia|exact E]]. intros k Hk. destruct (Nat.eq_dec k (S m)) as [->|Nk]; [lra|apply H; lia]. }
  destruct (fst (linprog p)).
  - destruct (H1 eq_refl) as [F O]. intros y t u Ht Hu. destruct (Lift y u Hu) as (z & Fz & Vz). specialize (O z Fz). rewrite Vz, VA in O.
    destruct Ht as [_ (i & Hi & <-)]. eapply Rle_trans; [|exact O]. apply (proj1 (lp_max_feasible M N A b _) F i Hi).
  - intros x t Ht. specialize (H2 eq_refl). destruct (Lift x t Ht) as (z & Fz & Vz).
    destruct (Classical_Prop.classic (exists y u, is_maxdev M N A b y u /\ u < t)) as [K|K]; [exact K|]. exfalso. apply (H2 z). split; [exact Fz|]. intros w Fw. rewrite Vz.
    destruct (Rle_lt_dec t (lp_value p w)) as [L|L]; [exact L|]. exfalso. apply K. destruct (Mx (fun j => w (1 + j)%nat)) as (u & Hu). exists (fun j => w (1 + j)%nat), u. split; [exact Hu|].
    eapply Rle_lt_trans; [|exact L]. rewrite VA. destruct Hu as [_ (i & Hi & <-)]. apply (proj1 (lp_max_feasible M N A b w) Fw i Hi).
Qed.
(** The linear programs are feasible and bounded below, so an exact solver cannot report them infeasible or unbounded. *)
Theorem C55_well_posed M N A b : (exists z, lp_feasible (lstabsdev_lp M N A b) z) /\ (forall z, lp_feasible (lstabsdev_lp M N A b) z -> 0 <= lp_value (lstabsdev_lp M N A b) z) /\
  ((0 < M)%nat -> (exists z, lp_feasible (lstmaxdev_lp M N A b) z) /\ (forall z, lp_feasible (lstmaxdev_lp M N A b) z -> 0 <= lp_value (lstmaxdev_lp M N A b) z)).
Proof.
  split; [|split].
  - exists (fun j => if Nat.ltb j M then Rabs (b j) else 0). apply lp_abs_feasible. intros i Hi. rewrite (proj2 (Nat.ltb_lt i M) Hi). right. unfold resid.
    rewrite sumn_0; [rewrite Rminus_0_l; apply Rabs_Ropp|]. intros j _. rewrite (proj2 (Nat.ltb_ge (M + j) M) ltac:(lia)). ring.
  - intros z H. rewrite lp_abs_value. apply sumn_nonneg. intros i Hi. eapply Rle_trans; [apply Rabs_pos|apply (proj1 (lp_abs_feasible M N A b z) H i Hi)].
  - intros HM. split.
    + exists (fun j => if Nat.eqb j 0 then sumn M (fun i => Rabs (b i)) else 0). apply lp_max_feasible. intros i Hi. cbn [Nat.eqb Nat.add]. unfold resid. rewrite sumn_0 by (intros; ring). rewrite Rminus_0_l, Rabs_Ropp.
      apply (sumn_ge_term M (fun i => Rabs (b i)) i); [intros; apply Rabs_pos|exact Hi].
    + intros z H. rewrite lp_max_value. eapply Rle_trans; [apply Rabs_pos|apply (proj1 (lp_max_feasible M N A b z) H O HM)].
Qed.
(** Without rows the second program is unbounded below: an exact solver fails on it. *)
Theorem C55_no_rows_refuted linprog N A b : lp_solver linprog -> lstmaxdev linprog 0 N A b = None.
Proof.
  intros HS. unfold lstmaxdev. destruct (HS (lstmaxdev_lp 0 N A b)) as [H1 _]. destruct (fst _); [|reflexivity]. exfalso. destruct (H1 eq_refl) as [_ HO].
  set (z := snd (linprog (lstmaxdev_lp 0 N A b))) in *. specialize (HO (fun j => if Nat.eqb j 0 then z O - 1 else 0)). rewrite !lp_max_value in HO. cbn [Nat.eqb] in HO.
  assert (z O <= z O - 1); [|lra]. apply HO. apply lp_max_feasible. intros i Hi. lia.
Qed.
(** An exact solver (of the contract above) exists in the classical metatheory; a small case: A = (1, 1)^T, b = (0, 2). *)
Example C55_ex : lp_optimal (lstabsdev_lp 2 1 (fun _ _ => 1) (fun i => if Nat.eqb i 0 then 0 else 2)) (fun j => match j with O => 1 | 1%nat => 1 | _ => 1 end).
Proof.
  split.
  - apply lp_abs_feasible. intros i Hi. unfold resid. destruct i as [|[|i]]; [| |lia]; simpl; apply Rabs_le; lra.
  - intros w H. rewrite !lp_abs_value. pose proof (proj1 (lp_abs_feasible _ _ _ _ _) H) as K. pose proof (K O ltac:(lia)) as K0. pose proof (K 1%nat ltac:(lia)) as K1.
    unfold resid in *. simpl in *. apply Rabs_bd in K0. apply Rabs_bd in K1. lra.
Qed.
Print Assumptions C54_points. Print Assumptions C54_points_nozero. Print Assumptions C54_kernel. Print Assumptions C54_filters_normalised. Print Assumptions C54_filters_sum_one. Print Assumptions C54_filters_at_samples.
Print Assumptions C55_lstabsdev. Print Assumptions C55_lstmaxdev. Print Assumptions C55_well_posed. Print Assumptions C55_no_rows_refuted.
