(** C104: bilinear_demosaic (sporco/interp.py 24-92). *)
Require Import Reals List Arith Bool Lra Lia.
Require Import Verif.DmsModel Verif.DmsSpec.
Local Open Scope R_scope.

Lemma clamp_in : forall hi t, 0 <= t -> t <= hi -> clampR hi t = t.
Proof. intros hi t H0 H1. unfold clampR. rewrite Rmin_left by lra. apply Rmax_right. lra. Qed.
Lemma clamp_low : forall hi t, 0 <= hi -> t <= 0 -> clampR hi t = 0.
Proof. intros hi t H0 H1. unfold clampR. rewrite Rmin_left by lra. apply Rmax_left. lra. Qed.
Lemma clamp_high : forall hi t, 0 <= hi -> hi <= t -> clampR hi t = hi.
Proof. intros hi t H0 H1. unfold clampR. rewrite Rmin_right by lra. apply Rmax_right. lra. Qed.

Lemma coord_node : forall n first a, (a < n)%nat -> coord n first (2 * a + first) = INR a.
Proof.
  intros n first a Ha. unfold coord. rewrite plus_INR, mult_INR.
  replace ((INR 2 * INR a + INR first - INR first) / 2) with (INR a) by (simpl; field).
  apply clamp_in; [apply pos_INR | apply le_INR; lia].
Qed.
(** A row before the first sample or behind the last one is evaluated at the nearest sample. *)
Lemma coord_before : forall n i, (i <= 1)%nat -> coord n 1 i = 0.
Proof.
  intros n i Hi. unfold coord. apply clamp_low; [apply pos_INR |].
  assert (INR i <= INR 1) by (apply le_INR; lia). lra.
Qed.
Lemma coord_after : forall n first i, (1 <= n)%nat -> (2 * (n - 1) + first <= i)%nat -> coord n first i = INR (n - 1).
Proof.
  intros n first i Hn Hi. unfold coord. apply clamp_high; [apply pos_INR |].
  apply le_INR in Hi. rewrite plus_INR, mult_INR in Hi. simpl (INR 2) in Hi. lra.
Qed.

Section Props.
Variable spl : nat -> (nat -> R) -> R -> R.
Hypothesis spl_ok : forall n f, (4 <= n)%nat -> spline n f (spl n f).
Variable tri : nat -> nat -> bool.
Variables (H W : nat) (img : nat -> nat -> R).

Lemma spl2_node : forall n m z a b, (4 <= n)%nat -> (4 <= m)%nat -> (a < n)%nat -> (b < m)%nat -> spl2 spl n m z (INR a) (INR b) = z a b.
Proof.
  intros n m z a b Hn Hm Ha Hb. unfold spl2. rewrite (sp_interp _ _ _ (spl_ok n _ Hn)) by exact Ha.
  apply (sp_interp _ _ _ (spl_ok m _ Hm)). exact Hb.
Qed.

Lemma green_measured : forall i j, measured i j = Green <-> is_green i j = true.
Proof.
  intros i j. unfold measured, is_green. rewrite Nat.odd_add, <- !Nat.negb_even.
  destruct (Nat.even i), (Nat.even j); cbn; split; intro E; try reflexivity; discriminate.
Qed.

(** *** Images that are accepted *)
Theorem C104_raises_refuted : demosaic spl tri H W img = None <-> (H < 8)%nat \/ (W < 8)%nat.
Proof.
  unfold demosaic.
  assert (E : forall n, (4 <=? n / 2)%nat = true <-> (8 <= n)%nat).
  { intro n. rewrite Nat.leb_le. split; intro L.
    - pose proof (Nat.div_mod n 2). lia.
    - apply (Nat.div_le_lower_bound n 2 4); lia. }
  destruct (4 <=? H / 2)%nat eqn:E1; destruct (4 <=? W / 2)%nat eqn:E2; cbn [andb].
  - apply E in E1. apply E in E2.
    rewrite (proj2 (E (H + 1)%nat)) by lia. rewrite (proj2 (E (W + 1)%nat)) by lia. cbn. split; [discriminate | lia].
  - split; [intros _ | reflexivity]. right. destruct (Nat.lt_ge_cases W 8) as [L|L]; [exact L |]. apply E in L. congruence.
  - split; [intros _ | reflexivity]. left. destruct (Nat.lt_ge_cases H 8) as [L|L]; [exact L |]. apply E in L. congruence.
  - split; [intros _ | reflexivity]. left. destruct (Nat.lt_ge_cases H 8) as [L|L]; [exact L |]. apply E in L. congruence.
Qed.

Hypothesis HH : (8 <= H)%nat.
Hypothesis HW : (8 <= W)%nat.

Lemma half4 : forall n, (8 <= n)%nat -> (4 <= n / 2)%nat /\ (4 <= (n + 1) / 2)%nat.
Proof. intros n Hn. split; apply Nat.div_le_lower_bound; lia. Qed.

Lemma some_channels : demosaic spl tri H W img = Some (red spl H W img, green tri H W img, blue spl H W img).
Proof.
  unfold demosaic. destruct (half4 H HH) as [A1 A2]. destruct (half4 W HW) as [B1 B2].
  apply Nat.leb_le in A1, A2, B1, B2. rewrite A1, A2, B1, B2. reflexivity.
Qed.

(** The green channel in closed form. *)
Definition green_val (i j : nat) : R :=
  if is_green i j then img i j
  else
    let rim := ((i =? 0) || (i =? H - 1))%nat in let side := ((j =? 0) || (j =? W - 1))%nat in
    let hor := mid (img i (j - 1)%nat) (img i (j + 1)%nat) in let ver := mid (img (i - 1)%nat j) (img (i + 1)%nat j) in
    if rim && side then mid (img i (if (j =? 0)%nat then 1 else W - 2)%nat) (img (if (i =? 0)%nat then 1 else H - 2)%nat j)
    else if rim then hor else if side then ver else if tri i j then hor else ver.

Lemma odd_neighbour : forall i j, is_green i j = false -> is_green i (S j) = true /\ is_green (S i) j = true.
Proof.
  intros i j E. unfold is_green in *. replace (i + S j)%nat with (S (i + j)) by lia. replace (S i + j)%nat with (S (i + j)) by lia.
  rewrite Nat.odd_succ, <- Nat.negb_odd, E. split; reflexivity.
Qed.
Lemma odd_pred : forall i j, is_green i j = false -> ((1 <= j)%nat -> is_green i (j - 1) = true) /\ ((1 <= i)%nat -> is_green (i - 1) j = true).
Proof.
  intros i j E. unfold is_green in *. split; intro L.
  - replace (i + j)%nat with (S (i + (j - 1))) in E by lia. rewrite Nat.odd_succ, <- Nat.negb_odd in E. destruct (Nat.odd (i + (j - 1))); [reflexivity | discriminate].
  - replace (i + j)%nat with (S (i - 1 + j)) in E by lia. rewrite Nat.odd_succ, <- Nat.negb_odd in E. destruct (Nat.odd (i - 1 + j)); [reflexivity | discriminate].
Qed.
Lemma gd_green : forall i j, is_green i j = true -> griddata tri H W img i j = Some (img i j).
Proof. intros i j E. unfold griddata. rewrite E. reflexivity. Qed.

(** One correction: the corner (i, j) is set, the other pixels are not. *)
Lemma patch_other : forall i j a b c d sg p q, (p <> i \/ q <> j)%nat -> patch i j a b c d sg p q = sg p q.
Proof.
  intros i j a b c d sg p q N. unfold patch. destruct (sg i j); [reflexivity |].
  destruct (Nat.eqb_spec p i); destruct (Nat.eqb_spec q j); cbn; try reflexivity. exfalso; lia.
Qed.
Lemma patch_at : forall i j a b c d sg, patch i j a b c d sg i j
  = match sg i j with Some x => Some x | None => match sg a b, sg c d with Some x, Some y => Some (mid x y) | _, _ => None end end.
Proof.
  intros i j a b c d sg. unfold patch. destruct (sg i j) eqn:E; [exact E |]. rewrite !Nat.eqb_refl. reflexivity.
Qed.

Lemma gd_corner : forall i j, (i = 0 \/ i = H - 1)%nat -> (j = 0 \/ j = W - 1)%nat ->
  griddata tri H W img i j = if is_green i j then Some (img i j) else None.
Proof.
  intros i j Hi Hj. unfold griddata. destruct (is_green i j); [reflexivity |].
  replace ((i =? 0) || (i =? H - 1))%nat with true by (symmetry; apply orb_true_iff; rewrite !Nat.eqb_eq; exact Hi).
  replace ((j =? 0) || (j =? W - 1))%nat with true by (symmetry; apply orb_true_iff; rewrite !Nat.eqb_eq; exact Hj).
  reflexivity.
Qed.

Lemma green_closed : forall i j, (i < H)%nat -> (j < W)%nat -> green tri H W img i j = Some (green_val i j).
Proof.
  intros i j Hi Hj. unfold green.
  destruct (Nat.eq_dec i 0) as [I0|I0]; [| destruct (Nat.eq_dec i (H - 1)) as [I1|I1]].
  - destruct (Nat.eq_dec j 0) as [J0|J0]; [| destruct (Nat.eq_dec j (W - 1)) as [J1|J1]].
    + subst. do 3 (rewrite patch_other by lia). rewrite patch_at, gd_corner by lia. unfold green_val.
      change (is_green 0 0) with false. cbn [Nat.eqb orb andb]. rewrite !gd_green by reflexivity. reflexivity.
    + subst i j. do 2 (rewrite patch_other by lia). rewrite patch_at. rewrite !patch_other by lia. rewrite gd_corner by lia.
      unfold green_val. destruct (is_green 0 (W - 1)) eqn:E; [reflexivity |].
      destruct (odd_pred _ _ E) as [A _]. destruct (odd_neighbour _ _ E) as [_ B].
      replace (W - 1 - 1)%nat with (W - 2)%nat in A by lia. rewrite !gd_green by (first [apply A; lia | exact B]).
      rewrite (Nat.eqb_refl (W - 1)), orb_true_r. replace (W - 1 =? 0)%nat with false by (symmetry; apply Nat.eqb_neq; lia). reflexivity.
    + subst i. rewrite !patch_other by lia. unfold griddata, green_val. destruct (is_green 0 j) eqn:E; [reflexivity |].
      replace ((j =? 0) || (j =? W - 1))%nat with false by (symmetry; apply orb_false_iff; rewrite !Nat.eqb_neq; lia). reflexivity.
  - destruct (Nat.eq_dec j 0) as [J0|J0]; [| destruct (Nat.eq_dec j (W - 1)) as [J1|J1]].
    + subst i j. rewrite patch_other by lia. rewrite patch_at. rewrite !patch_other by lia. rewrite gd_corner by lia.
      unfold green_val. destruct (is_green (H - 1) 0) eqn:E; [reflexivity |].
      destruct (odd_pred _ _ E) as [_ A]. destruct (odd_neighbour _ _ E) as [B _].
      replace (H - 1 - 1)%nat with (H - 2)%nat in A by lia. rewrite !gd_green by (first [apply A; lia | exact B]).
      rewrite (Nat.eqb_refl (H - 1)), orb_true_r. replace (H - 1 =? 0)%nat with false by (symmetry; apply Nat.eqb_neq; lia).
      cbn [Nat.eqb orb andb]. unfold mid. f_equal. lra.
    + subst i j. rewrite patch_at. rewrite !patch_other by lia. rewrite gd_corner by lia.
      unfold green_val. destruct (is_green (H - 1) (W - 1)) eqn:E; [reflexivity |].
      destruct (odd_pred _ _ E) as [A B].
      replace (W - 1 - 1)%nat with (W - 2)%nat in A by lia. replace (H - 1 - 1)%nat with (H - 2)%nat in B by lia.
      rewrite !gd_green by (first [apply A; lia | apply B; lia]).
      rewrite !Nat.eqb_refl, !orb_true_r. replace (H - 1 =? 0)%nat with false by (symmetry; apply Nat.eqb_neq; lia).
      replace (W - 1 =? 0)%nat with false by (symmetry; apply Nat.eqb_neq; lia). cbn [orb andb]. unfold mid. f_equal. lra.
    + subst i. rewrite !patch_other by lia. unfold griddata, green_val. destruct (is_green (H - 1) j) eqn:E; [reflexivity |].
      replace ((j =? 0) || (j =? W - 1))%nat with false by (symmetry; apply orb_false_iff; rewrite !Nat.eqb_neq; lia).
      rewrite andb_false_r. destruct (((H - 1 =? 0) || (H - 1 =? H - 1))%nat); [reflexivity |]. destruct (tri (H - 1) j); reflexivity.
  - rewrite !patch_other by lia. unfold griddata, green_val. destruct (is_green i j); [reflexivity |].
    replace ((i =? 0) || (i =? H - 1))%nat with false by (symmetry; apply orb_false_iff; rewrite !Nat.eqb_neq; lia).
    cbn [andb]. destruct ((j =? 0) || (j =? W - 1))%nat; [reflexivity |]. destruct (tri i j); reflexivity.
Qed.

(** *** The measured values are kept, and no entry is NaN *)
Theorem C104_samples : exists r g b, demosaic spl tri H W img = Some (r, g, b) /\
  forall i j, (i < H)%nat -> (j < W)%nat ->
    (exists x, g i j = Some x) /\
    match measured i j with Red => r i j = img i j | Green => g i j = Some (img i j) | Blue => b i j = img i j end.
Proof.
  do 3 eexists. split; [exact some_channels |]. intros i j Hi Hj. split; [eexists; apply green_closed; assumption |].
  destruct (half4 H HH) as [A1 A2]. destruct (half4 W HW) as [B1 B2].
  destruct (measured i j) eqn:E.
  - assert (P : Nat.even i = false /\ Nat.even j = false)
      by (unfold measured in E; destruct (Nat.even i), (Nat.even j); try discriminate; split; reflexivity).
    destruct P as [Pi Pj]. rewrite <- Nat.negb_odd in Pi, Pj. apply negb_false_iff in Pi, Pj. apply Nat.odd_spec in Pi, Pj.
    destruct Pi as [a ->]. destruct Pj as [c ->]. unfold red.
    rewrite !coord_node by (apply Nat.div_le_lower_bound; lia).
    rewrite spl2_node; try assumption; try reflexivity; apply Nat.div_le_lower_bound; lia.
  - rewrite green_closed by assumption. unfold green_val. apply green_measured in E. rewrite E. reflexivity.
  - assert (P : Nat.even i = true /\ Nat.even j = true)
      by (unfold measured in E; destruct (Nat.even i), (Nat.even j); try discriminate; split; reflexivity).
    destruct P as [Pi Pj]. apply Nat.even_spec in Pi, Pj.
    destruct Pi as [a ->]. destruct Pj as [c ->]. unfold blue.
    replace (2 * a)%nat with (2 * a + 0)%nat at 1 by lia. replace (2 * c)%nat with (2 * c + 0)%nat at 1 by lia.
    rewrite !coord_node by (apply Nat.div_le_lower_bound; lia).
    rewrite spl2_node; try assumption; try reflexivity; apply Nat.div_le_lower_bound; lia.
Qed.

(** *** At the border the red and blue values are those of the next row or column *)
Theorem C104_border : forall r g b, demosaic spl tri H W img = Some (r, g, b) ->
  (forall j, r 0%nat j = r 1%nat j) /\ (forall i, r i 0%nat = r i 1%nat) /\
  (Nat.odd H = true -> forall j, r (H - 1)%nat j = r (H - 2)%nat j) /\ (Nat.odd W = true -> forall i, r i (W - 1)%nat = r i (W - 2)%nat) /\
  (Nat.even H = true -> forall j, b (H - 1)%nat j = b (H - 2)%nat j) /\ (Nat.even W = true -> forall i, b i (W - 1)%nat = b i (W - 2)%nat).
Proof.
  intros r g b E. rewrite some_channels in E. injection E as <- <- <-.
  destruct (half4 H HH) as [A1 A2]. destruct (half4 W HW) as [B1 B2].
  assert (Odd : forall n, Nat.odd n = true -> (n = 2 * (n / 2) + 1)%nat).
  { intros n On. apply Nat.odd_spec in On. destruct On as [k ->]. replace ((2 * k + 1) / 2)%nat with k; [reflexivity |].
    rewrite Nat.mul_comm, Nat.div_add_l by lia. cbn. lia. }
  assert (Even : forall n, Nat.even n = true -> (n = 2 * ((n + 1) / 2))%nat).
  { intros n En. apply Nat.even_spec in En. destruct En as [k ->]. replace ((2 * k + 1) / 2)%nat with k; [reflexivity |].
    rewrite Nat.mul_comm, Nat.div_add_l by lia. cbn. lia. }
  unfold red, blue. repeat split.
  - intro j. rewrite (coord_before (H / 2) 0), (coord_before (H / 2) 1) by lia. reflexivity.
  - intro i. rewrite (coord_before (W / 2) 0), (coord_before (W / 2) 1) by lia. reflexivity.
  - intros O j. apply Odd in O. rewrite (coord_after (H / 2) 1 (H - 1)), (coord_after (H / 2) 1 (H - 2)) by lia. reflexivity.
  - intros O i. apply Odd in O. rewrite (coord_after (W / 2) 1 (W - 1)), (coord_after (W / 2) 1 (W - 2)) by lia. reflexivity.
  - intros O j. apply Even in O. rewrite (coord_after ((H + 1) / 2) 0 (H - 1)), (coord_after ((H + 1) / 2) 0 (H - 2)) by lia. reflexivity.
  - intros O i. apply Even in O. rewrite (coord_after ((W + 1) / 2) 0 (W - 1)), (coord_after ((W + 1) / 2) 0 (W - 2)) by lia. reflexivity.
Qed.

(** *** The green channel: means of two neighbours *)
Theorem C104_green : forall r g b, demosaic spl tri H W img = Some (r, g, b) -> forall i j, (i < H)%nat -> (j < W)%nat -> measured i j <> Green ->
  exists p q p' q', (p < H /\ q < W /\ p' < H /\ q' < W)%nat /\ measured p q = Green /\ measured p' q' = Green /\
    (Nat.max (p - i) (i - p) + Nat.max (q - j) (j - q) = 1)%nat /\ (Nat.max (p' - i) (i - p') + Nat.max (q' - j) (j - q') = 1)%nat /\
    (p, q) <> (p', q') /\ g i j = Some ((img p q + img p' q') / 2) /\
    (((0 < i < H - 1)%nat \/ (0 < j < W - 1)%nat) -> (p + p' = 2 * i /\ q + q' = 2 * j)%nat).
Proof.
  intros r g b E i j Hi Hj N. rewrite some_channels in E. injection E as <- <- <-.
  rewrite green_closed by assumption. unfold green_val.
  destruct (is_green i j) eqn:G; [exfalso; apply N, green_measured, G |].
  destruct (odd_neighbour _ _ G) as [GR GD]. destruct (odd_pred _ _ G) as [GL GU].
  replace (S j) with (j + 1)%nat in GR by lia. replace (S i) with (i + 1)%nat in GD by lia.
  assert (HOR : (0 < j < W - 1)%nat -> exists p q p' q', (p < H /\ q < W /\ p' < H /\ q' < W)%nat /\ measured p q = Green /\ measured p' q' = Green /\
    (Nat.max (p - i) (i - p) + Nat.max (q - j) (j - q) = 1)%nat /\ (Nat.max (p' - i) (i - p') + Nat.max (q' - j) (j - q') = 1)%nat /\
    (p, q) <> (p', q') /\ Some (mid (img i (j - 1)%nat) (img i (j + 1)%nat)) = Some ((img p q + img p' q') / 2) /\
    (((0 < i < H - 1)%nat \/ (0 < j < W - 1)%nat) -> (p + p' = 2 * i /\ q + q' = 2 * j)%nat)).
  { intro J. exists i, (j - 1)%nat, i, (j + 1)%nat.
    repeat split; try lia; try (apply green_measured; first [exact GR | apply GL; lia]). intro X; inversion X; lia. }
  assert (VER : (0 < i < H - 1)%nat -> exists p q p' q', (p < H /\ q < W /\ p' < H /\ q' < W)%nat /\ measured p q = Green /\ measured p' q' = Green /\
    (Nat.max (p - i) (i - p) + Nat.max (q - j) (j - q) = 1)%nat /\ (Nat.max (p' - i) (i - p') + Nat.max (q' - j) (j - q') = 1)%nat /\
    (p, q) <> (p', q') /\ Some (mid (img (i - 1)%nat j) (img (i + 1)%nat j)) = Some ((img p q + img p' q') / 2) /\
    (((0 < i < H - 1)%nat \/ (0 < j < W - 1)%nat) -> (p + p' = 2 * i /\ q + q' = 2 * j)%nat)).
  { intro I. exists (i - 1)%nat, j, (i + 1)%nat, j.
    repeat split; try lia; try (apply green_measured; first [exact GD | apply GU; lia]). intro X; inversion X; lia. }
  destruct (Nat.eqb_spec i 0) as [I0|I0]; destruct (Nat.eqb_spec i (H - 1)) as [I1|I1];
    destruct (Nat.eqb_spec j 0) as [J0|J0]; destruct (Nat.eqb_spec j (W - 1)) as [J1|J1]; cbn [orb andb];
    try (exfalso; lia); try (apply HOR; lia); try (apply VER; lia).
  - (* (0, 0) *) exists i, 1%nat, 1%nat, j. subst i j.
    repeat split; try lia; try reflexivity. intro X; inversion X.
  - (* (0, W-1) *) subst i. change (0 + 1)%nat with 1%nat in GD. replace (W - 2)%nat with (j - 1)%nat by lia.
    exists 0%nat, (j - 1)%nat, 1%nat, j. apply green_measured in GD. assert (GL' := proj2 (green_measured _ _) (GL ltac:(lia))).
    repeat split; try assumption; try lia; try (intro X; inversion X; lia).
  - (* (H-1, 0) *) subst j. change (0 + 1)%nat with 1%nat in GR. replace (H - 2)%nat with (i - 1)%nat by lia.
    exists i, 1%nat, (i - 1)%nat, 0%nat. apply green_measured in GR. assert (GU' := proj2 (green_measured _ _) (GU ltac:(lia))).
    repeat split; try assumption; try lia; try (intro X; inversion X; lia).
  - (* (H-1, W-1) *) exists i, (W - 2)%nat, (H - 2)%nat, j. replace (W - 2)%nat with (j - 1)%nat by lia. replace (H - 2)%nat with (i - 1)%nat by lia.
    repeat split; try lia; try (apply green_measured; first [apply GL; lia | apply GU; lia]); try (intro X; inversion X; lia).
  - destruct (tri i j); [apply HOR | apply VER]; lia.
Qed.
End Props.

(** *** Red and blue are not interpolated bilinearly *)
(** The spline through 4 values is one cubic polynomial: its value between the two inner ones. *)
Lemma spline4_mid : forall f g, spline 4 f g -> g (3 / 2) = (- f 0%nat + 9 * f 1%nat + 9 * f 2%nat - f 3%nat) / 16.
Proof.
  intros f g [I (a & b & c & d & P & _ & E1 & E2)]. cbn [Nat.sub] in E2.
  assert (Q : forall k t, (k < 3)%nat -> INR k <= t <= INR (S k) -> g t = cubic (a 0%nat) (b 0%nat) (c 0%nat) (d 0%nat) t).
  { intros k t Hk Ht. rewrite (P k t) by (lia || exact Ht). destruct k as [|[|[|k]]]; [reflexivity | apply E1 | | lia]. rewrite E2. apply E1. }
  rewrite (Q 1%nat) by (lia || (simpl; lra)).
  rewrite <- (I 0%nat), <- (I 1%nat), <- (I 2%nat), <- (I 3%nat) by lia.
  rewrite (Q 0%nat (INR 0)), (Q 1%nat (INR 1)), (Q 2%nat (INR 2)), (Q 2%nat (INR 3)) by (lia || (simpl; lra)).
  unfold cubic. simpl. field.
Qed.

(** 8 by 8 images, the smallest ones that are accepted: the red value between the samples in rows 3 and 5. *)
Theorem C104_midpoint : forall spl, (forall n f, (4 <= n)%nat -> spline n f (spl n f)) -> forall tri img r g b,
  demosaic spl tri 8 8 img = Some (r, g, b) -> forall j, (j < 8)%nat -> Nat.odd j = true ->
  r 4%nat j = (- img 1%nat j + 9 * img 3%nat j + 9 * img 5%nat j - img 7%nat j) / 16.
Proof.
  intros spl ok tri img r g b E j Hj Oj. rewrite some_channels in E by lia. injection E as <- <- <-.
  apply Nat.odd_spec in Oj. destruct Oj as [c ->]. unfold red, spl2. change (8 / 2)%nat with 4%nat.
  assert (C : coord 4 1 4 = 3 / 2) by (unfold coord; rewrite clamp_in; simpl; lra). rewrite C.
  rewrite (coord_node 4 1 c) by lia.
  rewrite (spline4_mid _ _ (ok 4%nat _ (le_n 4))).
  rewrite !(sp_interp _ _ _ (ok 4%nat _ (le_n 4))) by lia. reflexivity.
Qed.

(** Bilinear interpolation would give the mean of the two samples, and values between 0 and 1 for an image with values between 0 and 1. *)
Theorem C104_bilinear_refuted : exists img : nat -> nat -> R, (forall i j, 0 <= img i j <= 1) /\
  forall spl, (forall n f, (4 <= n)%nat -> spline n f (spl n f)) -> forall tri, exists r g b, demosaic spl tri 8 8 img = Some (r, g, b) /\
    r 4%nat 3%nat <> (img 3%nat 3%nat + img 5%nat 3%nat) / 2 /\ r 4%nat 3%nat < 0.
Proof.
  exists (fun i _ => if (i =? 1)%nat then 1 else 0). split; [intros i j; destruct (i =? 1)%nat; lra |].
  intros spl ok tri. do 3 eexists. split; [apply some_channels; lia |].
  pose proof (C104_midpoint spl ok tri (fun i _ => if (i =? 1)%nat then 1 else 0) _ _ _
                (some_channels spl tri 8 8 _ (le_n 8) (le_n 8)) 3%nat ltac:(lia) eq_refl) as M.
  cbn [Nat.eqb] in M. rewrite M. cbn [Nat.eqb]. lra.
Qed.

(** A concrete case: the cubic through 4 values is a spline in the sense of the hypothesis. *)
Definition lagrange (f : nat -> R) (t : R) : R :=
  f 0%nat * ((1 - t) * (2 - t) * (3 - t) / 6) + f 1%nat * (t * (2 - t) * (3 - t) / 2)
  + f 2%nat * (t * (t - 1) * (3 - t) / 2) + f 3%nat * (t * (t - 1) * (t - 2) / 6).
Example C104_instance : forall f, spline 4 f (lagrange f).
Proof.
  intro f. split.
  - intros k Hk. destruct k as [|[|[|[|k]]]]; try lia; unfold lagrange; simpl; field.
  - exists (fun _ => f 0%nat), (fun _ => - 11 / 6 * f 0%nat + 3 * f 1%nat - 3 / 2 * f 2%nat + / 3 * f 3%nat),
      (fun _ => f 0%nat - 5 / 2 * f 1%nat + 2 * f 2%nat - / 2 * f 3%nat), (fun _ => - / 6 * f 0%nat + / 2 * f 1%nat - / 2 * f 2%nat + / 6 * f 3%nat).
    repeat split.
    + intros k t _ _. unfold lagrange, cubic. field.
    + intros k _. exists 0. intro t. lra.
Qed.

Print Assumptions C104_raises_refuted.
Print Assumptions C104_samples.
Print Assumptions C104_border.
Print Assumptions C104_green.
Print Assumptions C104_midpoint.
Print Assumptions C104_bilinear_refuted.
