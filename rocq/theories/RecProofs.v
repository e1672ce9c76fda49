Require Import List Arith ZArith Reals Bool Lia Lra FunctionalExtensionality.
Require Import Verif.RVec Verif.Cplx Verif.FftModel Verif.FftProofs Verif.FftInv Verif.CscModel Verif.CscSpec Verif.CscProofs Verif.CscProps Verif.RecModel Verif.RecSpec.
Import ListNotations.
Local Open Scope R_scope.

Lemma fftn_upd s r h ax j : ~ In ax r -> forall idx, fftn s r h (upd idx ax j) = fftn s r (fun i => h (upd i ax j)) idx.
Proof.
  induction r as [|a r IH]; intros N idx; [reflexivity|]. simpl. unfold dft_ax.
  assert (Na : a <> ax) by (intros ->; apply N; left; reflexivity).
  rewrite upd_other by exact Na. apply dft_ext. intros k _. rewrite upd_comm by congruence. apply IH. intros I; apply N; right; exact I.
Qed.
Lemma fftn_0 s r : forall idx, fftn s r (fun _ => c0) idx = c0.
Proof.
  induction r as [|a r IH]; intros idx; [reflexivity|]. simpl. unfold dft_ax, dft.
  transitivity (csumn (s a) (fun _ => c0)); [apply csumn_ext; intros j _; rewrite IH; ceq; ring|].
  ceq; simpl; rewrite sumn_const; ring.
Qed.
Lemma mem_upd_inside sa r ax j i : ~ In ax r -> inside sa r (upd i ax j) = inside sa r i.
Proof.
  intros N. unfold inside. induction r as [|b r IH]; [reflexivity|]. cbn [forallb]. rewrite IH by (intros I; apply N; right; exact I).
  rewrite upd_other by (intros ->; apply N; left; reflexivity). reflexivity.
Qed.
Lemma csumn_first n (f : nat -> C) : (0 < n)%nat -> (forall j, (0 < j < n)%nat -> f j = c0) -> csumn n f = f O.
Proof.
  intros Hn H. assert (E : forall g : nat -> R, (forall j, (0 < j < n)%nat -> g j = 0) -> sumn n g = g O).
  { intros g Hg. destruct n as [|n]; [lia|]. clear H Hn. induction n as [|n IH]; [simpl; ring|].
    change (sumn (S n) g + g (S n) = g O). rewrite IH by (intros j Hj; apply Hg; split; [apply Hj|apply Nat.lt_lt_succ_r; apply Hj]). rewrite (Hg (S n)) by lia. ring. }
  ceq; apply E; intros j Hj; rewrite H by exact Hj; reflexivity.
Qed.

(** Transforming a padded array is repeating the transform of the array along the axes where its length is one. *)
Lemma padded_fftn s dsh axes : NoDup axes -> (forall ax, In ax axes -> (0 < s ax)%nat) ->
  (forall ax, In ax axes -> dsh ax = s ax \/ dsh ax = 1%nat) ->
  forall x idx, fftn s axes (padC dsh axes x) idx = fftn dsh axes x (stretch dsh axes idx).
Proof.
  induction axes as [|a r IH]; intros ND P H x idx.
  - cbn [fftn fold_right]. unfold padC, inside. cbn [forallb]. f_equal. 
  - inversion ND as [|? ? N ND']; subst. cbn [fftn fold_right]. change (fold_right (dft_ax s) ?y r) with (fftn s r y). change (fold_right (dft_ax dsh) ?y r) with (fftn dsh r y).
    unfold dft_ax at 1 2.
    assert (E : forall j, fftn s r (padC dsh (a :: r) x) (upd idx a j) =
      if Nat.ltb j (dsh a) then fftn dsh r x (upd (stretch dsh (a :: r) idx) a j) else c0).
    { intros j. rewrite fftn_upd by exact N. destruct (Nat.ltb j (dsh a)) eqn:L.
      - transitivity (fftn s r (padC dsh r (fun i => x (upd i a j))) idx).
        + apply (f_equal (fun g => fftn s r g idx)). extensionality i. unfold padC. unfold inside at 1. cbn [forallb]. rewrite upd_same, L.
          change (forallb (fun ax => Nat.ltb (upd i a j ax) (dsh ax)) r) with (inside dsh r (upd i a j)). rewrite mem_upd_inside by exact N. reflexivity.
        + rewrite IH; [|exact ND'|intros; apply P; right; assumption|intros; apply H; right; assumption].
          rewrite <- (fftn_upd dsh r x a j N). f_equal. extensionality k. unfold upd, stretch. destruct (Nat.eqb k a) eqn:Ek; [reflexivity|].
          unfold mem. cbn [existsb]. rewrite Ek. reflexivity.
      - rewrite <- (fftn_0 s r idx). apply (f_equal (fun g => fftn s r g idx)). extensionality i. unfold padC, inside. cbn [forallb]. rewrite upd_same, L. reflexivity. }
    rewrite (dft_ext _ _ _ _ (fun j _ => E j)). clear E.
    set (A := fun j => fftn dsh r x (upd (stretch dsh (a :: r) idx) a j)).
    change (dft (s a) (fun j => if Nat.ltb j (dsh a) then A j else c0) (idx a) = dft (dsh a) A (stretch dsh (a :: r) idx a)).
    assert (St : stretch dsh (a :: r) idx a = if Nat.eqb (dsh a) 1 then O else idx a).
    { unfold stretch, mem. cbn [existsb]. rewrite Nat.eqb_refl. reflexivity. }
    rewrite St. destruct (Nat.eqb (dsh a) 1) eqn:E1.
    + apply Nat.eqb_eq in E1. rewrite E1. unfold dft. rewrite (csumn_first (s a)).
      * rewrite (csumn_first 1) by lia. cbn [Nat.ltb Nat.leb]. change (Z.of_nat 0) with 0%Z. rewrite !Z.mul_0_l, !Z.opp_0, !ru_0. reflexivity.
      * apply P; left; reflexivity.
      * intros j Hj. destruct (Nat.ltb_spec j 1); [lia|]. ceq; ring.
    + destruct (H a (or_introl eq_refl)) as [Ha|Ha]; [|apply Nat.eqb_neq in E1; contradiction]. rewrite Ha. apply dft_ext.
      intros j Hj. destruct (Nat.ltb_spec j (s a)); [reflexivity|lia].
Qed.

Lemma irfftn_ext_in s axes h g p : NoDup axes -> axes <> [] -> inr s axes p -> (forall i, inr s axes i -> h i = g i) -> irfftn s axes h p = irfftn s axes g p.
Proof.
  intros ND Hne Hp H. destruct (exists_last Hne) as (r & l & ->). unfold irfftn. rewrite last_last, removelast_last.
  assert (Hl : (p l < s l)%nat) by (apply Hp; apply in_or_app; right; left; reflexivity).
  assert (Nl : ~ In l r) by (intros I; apply NoDup_remove_2 in ND; apply ND; rewrite app_nil_r; exact I).
  apply irfft_ext; [lia|]. intros k Hk. apply ifftn_ext_in. intros i Hi Ho. apply H.
  intros ax Ha. apply in_app_or in Ha. destruct Ha as [Ha|[<-|[]]]; [apply Hi; exact Ha|].
  rewrite (Ho l Nl), upd_same. pose proof (Nat.div_lt (s l) 2). destruct (s l) as [|[|n]]; [lia|simpl in Hk; lia|]. lia.
Qed.

Lemma stretch_half sh axes : (forall ax, In ax axes -> (0 < sh ax)%nat) -> stretch (half_shape axes sh) axes = stretch sh axes.
Proof.
  intros P. extensionality i. extensionality ax. unfold stretch. destruct (mem ax axes) eqn:Em; [|reflexivity]. cbn [andb].
  apply mem_in in Em. specialize (P ax Em). unfold half_shape. destruct (Nat.eqb ax (last axes O)); [|reflexivity].
  destruct (sh ax) as [|[|n]]; [lia|reflexivity|]. replace (Nat.eqb (S (S n) / 2 + 1) 1) with false; [reflexivity|].
  symmetry. apply Nat.eqb_neq. pose proof (Nat.div_str_pos (S (S n)) 2). lia.
Qed.
Lemma stretch_self s axes i : inr s axes i -> stretch s axes i = i.
Proof.
  intros H. extensionality ax. unfold stretch. destruct (mem ax axes) eqn:Em; [|reflexivity]. cbn [andb]. apply mem_in in Em. specialize (H ax Em).
  destruct (Nat.eqb_spec (s ax) 1); [lia|reflexivity].
Qed.
Lemma compatible_true sa sb axes : compatible sa sb axes = true <-> forall ax, In ax axes -> sa ax = sb ax \/ sa ax = 1%nat \/ sb ax = 1%nat.
Proof.
  unfold compatible. rewrite forallb_forall. split; intros H ax Ha; specialize (H ax Ha).
  - rewrite !orb_true_iff, !Nat.eqb_eq in H. tauto.
  - rewrite !orb_true_iff, !Nat.eqb_eq. tauto.
Qed.
Lemma half_div n : (n / 2 + 1 = 1)%nat <-> (n <= 1)%nat.
Proof.
  split; intros H; [|destruct n as [|[|n]]; [reflexivity|reflexivity|lia]].
  destruct (le_gt_dec n 1) as [L|L]; [exact L|]. pose proof (Nat.div_str_pos n 2). lia.
Qed.

Lemma ccm_reconstruct_same s dsh axes M D X p : NoDup axes -> axes <> [] -> (forall ax, In ax axes -> (0 < s ax)%nat) ->
  (forall ax, In ax axes -> dsh ax = s ax \/ dsh ax = 1%nat) -> inr s axes p ->
  irfftn s axes (fun i => csumn M (fun m => cmul (rfftn s axes (X m) (stretch (half_shape axes s) axes i)) (rfftn dsh axes (D m) (stretch (half_shape axes dsh) axes i)))) p
  = synth s dsh axes M (fun _ => D) X 0 p.
Proof.
  intros ND Hne P H Hp. rewrite <- C68_reconstruct by assumption. unfold reconstruct. apply irfftn_ext_in; try assumption.
  intros i Hi. apply csumn_ext. intros m _. rewrite !stretch_half.
  2: intros ax Ha; destruct (H ax Ha) as [->| ->]; [apply P; exact Ha|lia].
  2: exact P.
  rewrite (stretch_self s) by exact Hi. transitivity (cmul (rfftn dsh axes (D m) (stretch dsh axes i)) (rfftn s axes (X m) i)); [ceq; ring|]. f_equal.
  unfold Df. destruct (exists_last Hne) as (r & l & ->). rewrite !rfftn_fftn. rewrite <- (padded_fftn s dsh (r ++ [l]) ND P H).
  apply (f_equal (fun g => fftn s (r ++ [l]) g i)). extensionality q. unfold padC, padR. destruct (inside dsh (r ++ [l]) q); reflexivity.
Qed.
