(** C28: norms in the DFT domain; C29: convolution in the DFT domain. *)
Require Import List Arith ZArith Reals Bool Lia Lra Ring FunctionalExtensionality.
Require Import Verif.RVec Verif.Cplx Verif.FftModel Verif.FftProofs.
Import ListNotations.
Local Open Scope R_scope.

(** The squared norm of a real array with [d] axes of lengths [s]. *)
Definition norm2_r (d : nat) (s : nat -> nat) (x : index -> R) : R := rsum s (seq 0 d) (fun i => x i * x i) idx0.
Definition norm2_c (d : nat) (s : nat -> nat) (x : index -> C) : R := rsum s (seq 0 d) (fun i => cabs2 (x i)) idx0.
Definition good_axes (d : nat) (s : nat -> nat) (axes : list nat) : Prop :=
  NoDup axes /\ axes <> [] /\ forall ax, In ax axes -> (ax < d)%nat /\ (0 < s ax)%nat.

Theorem C28_full_spectrum (d : nat) (s : nat -> nat) (axes : list nat) (x : index -> C) :
  (forall ax, In ax axes -> (ax < d)%nat /\ (0 < s ax)%nat) ->
  fl2norm2 d s axes (fftn s axes x) = norm2_c d s x.
Proof.
  intros H. unfold fl2norm2, norm2_c. rewrite parseval_axes.
  - pose proof (prodn_pos s axes (fun ax Ha => proj2 (H ax Ha))). field. lra.
  - intros ax Ha. split; [apply in_seq; destruct (H ax Ha); lia|apply H; exact Ha].
  - apply seq_NoDup.
Qed.
Print Assumptions C28_full_spectrum.

Theorem C28_half_spectrum (d : nat) (s : nat -> nat) (axes : list nat) (x : index -> R) :
  good_axes d s axes -> rfl2norm2 d s axes (rfftn s axes x) = norm2_r d s x.
Proof.
  intros (ND & Hne & H). destruct (exists_last Hne) as (r & l & ->).
  assert (N1 : ~ In l r) by (apply NoDup_remove_2 in ND; rewrite app_nil_r in ND; exact ND).
  unfold rfl2norm2, rfftn, norm2_r. rewrite last_last, removelast_last.
  destruct (H l ltac:(apply in_or_app; right; left; reflexivity)) as [Hl Hs].
  assert (Hr : forall ax, In ax r -> (ax < d)%nat /\ (0 < s ax)%nat) by (intros; apply H; apply in_or_app; left; assumption).
  set (rest := filter (fun ax => negb (Nat.eqb ax l)) (seq 0 d)).
  assert (NDr : NoDup rest) by (apply NoDup_filter, seq_NoDup).
  assert (Nl : ~ In l rest) by (intros I; apply filter_In in I; rewrite Nat.eqb_refl in I; destruct I; discriminate).
  assert (Hsub : forall ax, In ax r -> In ax rest /\ (0 < s ax)%nat).
  { intros ax Ha. destruct (Hr ax Ha). split; [|assumption]. apply filter_In. split; [apply in_seq; lia|].
    destruct (Nat.eqb_spec ax l) as [->|]; [contradiction|reflexivity]. }
  set (h := fun (i : index) => dft (s l) (fun j => ofR (x (upd i l j)))).
  assert (A : forall k, rsum s rest (fun i => cabs2 (fftn s r (dft_ax s l (fun i0 => ofR (x i0))) i)) (upd idx0 l k) =
                        prodn s r * rsum s rest (fun i => cabs2 (h i k)) idx0).
  { intros k. rewrite (parseval_axes s rest r _ Hsub NDr). f_equal. rewrite rsum_upd by exact Nl. apply rsum_ext. intros i.
    unfold dft_ax, h. rewrite upd_same. f_equal. apply dft_ext. intros j _. rewrite upd_upd. reflexivity. }
  cbv zeta. rewrite (sumn_ext _ _ (fun k => prodn s r * rsum s rest (fun i => cabs2 (h i (S k))) idx0)) by (intros; apply A).
  rewrite sumn_scal, <- rsum_sumn. rewrite !A. rewrite Nat.add_sub.
  rewrite (rsum_pull s l (seq 0 d)) by (try apply seq_NoDup; apply in_seq; lia). fold rest.
  assert (E : rsum s rest (fun i => cabs2 (h i O)) idx0 + 2 * rsum s rest (fun i => sumn ((s l + 1) / 2 - 1) (fun k => cabs2 (h i (S k)))) idx0
     + (if Nat.even (s l) then rsum s rest (fun i => cabs2 (h i (s l / 2)%nat)) idx0 else 0)
     = INR (s l) * rsum s rest (fun i => sumn (s l) (fun j => x (upd i l j) * x (upd i l j))) idx0).
  { rewrite <- !rsum_scal, <- !rsum_plus.
    rewrite <- (rsum_ext s rest _ _ (fun i => rfft_norm (s l) (fun j => x (upd i l j)) Hs)). unfold h. cbv zeta.
    destruct (Nat.even (s l)); rewrite <- ?rsum_plus; [reflexivity|].
    rewrite Rplus_0_r. apply rsum_ext. intros i. lra. }
  rewrite prodn_app. cbn [prodn]. rewrite Rmult_1_r. pose proof (prodn_pos s r (fun ax Ha => proj2 (Hr ax Ha))) as P1. pose proof (INR_pos (s l) Hs) as P2.
  transitivity (/ INR (s l) * (INR (s l) * rsum s rest (fun i => sumn (s l) (fun j => x (upd i l j) * x (upd i l j))) idx0)); [|field; lra].
  rewrite <- E. destruct (Nat.even (s l)); field; lra.
Qed.
Print Assumptions C28_half_spectrum.
Example C28_ex : good_axes 3 (fun ax => nth ax [4; 5; 2]%nat O) [0; 1]%nat /\
  norm2_r 2 (fun _ => 2%nat) (fun i => INR (i 0%nat + 2 * i 1%nat)) = 14.
Proof.
  split.
  - split; [|split].
    + repeat constructor; simpl; intuition lia.
    + discriminate.
    + intros ax [<-|[<-|[]]]; simpl; lia.
  - unfold norm2_r, upd. simpl. lra.
Qed.

(** The spectrum determines the array: the transforms used are inverse to each other. *)
Theorem C28_inverse_real (s : nat -> nat) (r : list nat) (l : nat) (x : index -> R) (idx : index) :
  NoDup (r ++ [l]) -> (forall ax, In ax (r ++ [l]) -> (idx ax < s ax)%nat) ->
  irfftn s (r ++ [l]) (rfftn s (r ++ [l]) x) idx = x idx.
Proof.
  intros ND Hi. unfold irfftn, rfftn. rewrite last_last, removelast_last.
  assert (N1 : ~ In l r) by (apply NoDup_remove_2 in ND; rewrite app_nil_r in ND; exact ND).
  assert (N2 : NoDup r) by (apply NoDup_remove_1 in ND; rewrite app_nil_r in ND; exact ND).
  assert (Inv : forall (r : list nat) y i, NoDup r -> (forall ax, In ax r -> (i ax < s ax)%nat) -> ifftn s r (fftn s r y) i = y i).
  { clear. induction r as [|ax r IH]; intros y i ND Hi; [reflexivity|]. inversion ND as [|? ? N1 N2]; subst.
    change (fftn s (ax :: r) y) with (dft_ax s ax (fftn s r y)). rewrite fftn_dft_ax by exact N1.
    change (ifftn s (ax :: r) ?g) with (idft_ax s ax (ifftn s r g)). unfold idft_ax.
    rewrite (idft_ext _ _ (dft (s ax) (fun j => y (upd i ax j)))).
    - rewrite idft_dft by (apply Hi; left; reflexivity). rewrite upd_self. reflexivity.
    - intros k Hk. rewrite IH; [|exact N2|].
      + unfold dft_ax. rewrite upd_same. apply dft_ext. intros j _. rewrite upd_upd. reflexivity.
      + intros b Hb. rewrite upd_other by (intros ->; contradiction). apply Hi. right. exact Hb. }
  rewrite (irfft_ext _ _ (dft (s l) (fun j => ofR (x (upd idx l j))))).
  - rewrite irfft_dft by (apply Hi; apply in_or_app; right; left; reflexivity). rewrite upd_self. reflexivity.
  - specialize (Hi l ltac:(apply in_or_app; right; left; reflexivity)). lia.
  - intros k _. rewrite Inv; [|exact N2|].
    + unfold dft_ax. rewrite upd_same. apply dft_ext. intros j _. rewrite upd_upd. reflexivity.
    + intros b Hb. rewrite upd_other by (intros ->; contradiction). apply Hi. apply in_or_app. left. exact Hb.
Qed.
Print Assumptions C28_inverse_real.

(** ** C29 *)
(** The sample of the kernel which meets the sample [m] of the signal for the output position [idx]. *)
Definition partner (s : nat -> nat) (axes : list nat) (org : nat -> Z) (idx m : index) : index :=
  fun ax => if mem ax axes then Z.to_nat ((Z.of_nat (idx ax) + org ax - Z.of_nat (m ax)) mod Z.of_nat (s ax)) else idx ax.

Lemma partner_cdiff s axes org idx m :
  (forall ax, In ax axes -> (m ax < s ax)%nat) ->
  partner s axes org idx m =
  cdiff s axes (fun ax => if mem ax axes then Z.to_nat ((Z.of_nat (idx ax) + org ax) mod Z.of_nat (s ax)) else idx ax) m.
Proof.
  intros Hm. extensionality ax. unfold partner, cdiff. destruct (mem ax axes) eqn:E; [|reflexivity].
  apply mem_in in E. specialize (Hm ax E).
  set (c := Z.to_nat ((Z.of_nat (idx ax) + org ax) mod Z.of_nat (s ax))).
  assert (Hc : Z.of_nat c = ((Z.of_nat (idx ax) + org ax) mod Z.of_nat (s ax))%Z) by (unfold c; rewrite Z2Nat.id; [reflexivity|apply Z.mod_pos_bound; lia]).
  assert (Hc2 : (c < s ax)%nat) by (apply Nat2Z.inj_lt; rewrite Hc; apply Z.mod_pos_bound; lia).
  apply Nat2Z.inj. rewrite csub_mod by assumption. rewrite Hc, Zminus_mod_idemp_l.
  rewrite Z2Nat.id; [reflexivity|apply Z.mod_pos_bound; lia].
Qed.

Definition org_of (axes : list nat) (origin : option (list Z)) : nat -> Z :=
  match origin with None => fun _ => 0%Z | Some o => offset axes o end.

Section conv.
Variables (sa sb : nat -> nat) (axes : list nat) (origin : option (list Z)).
Let s := dims sa sb.
Hypothesis ND : NoDup axes.
Hypothesis Ho : forall o, origin = Some o -> length o = length axes.
Variable idx : index.
Hypothesis Hi : forall ax, In ax axes -> (idx ax < s ax)%nat.

Let idx' : index := fun ax => if mem ax axes then Z.to_nat ((Z.of_nat (idx ax) + org_of axes origin ax) mod Z.of_nat (s ax)) else idx ax.

Lemma shifted {T} (f : index -> T) : match origin with None => f | Some o => fun i => f (roll_idx s (combine axes o) i) end idx = f idx'.
Proof.
  unfold idx', org_of. destruct origin as [o|].
  - f_equal. extensionality ax. apply roll_idx_at; [exact ND|apply Ho; reflexivity].
  - f_equal. extensionality ax. destruct (mem ax axes) eqn:E; [|reflexivity]. apply mem_in in E. specialize (Hi ax E).
    rewrite Z.add_0_r, <- Nat2Z.inj_mod, Nat2Z.id, Nat.mod_small by exact Hi. reflexivity.
Qed.
Lemma idx'_in ax : In ax axes -> (idx' ax < s ax)%nat.
Proof.
  intros H. specialize (Hi ax H). unfold idx'. apply mem_in in H. rewrite H. apply Nat2Z.inj_lt. rewrite Z2Nat.id; apply Z.mod_pos_bound; lia.
Qed.
Lemma idx'_out ax : ~ In ax axes -> idx' ax = idx ax.
Proof. intros H. unfold idx'. destruct (mem ax axes) eqn:E; [apply mem_in in E; contradiction|reflexivity]. Qed.

End conv.

Theorem C29_circular_complex (sa sb : nat -> nat) (axes : list nat) (origin : option (list Z)) (a b : index -> C) (idx : index) :
  let s := dims sa sb in
  NoDup axes -> (forall o, origin = Some o -> length o = length axes) -> (forall ax, In ax axes -> (idx ax < s ax)%nat) ->
  fftconv_c sa sb axes origin a b idx =
  asum s axes (fun m => cmul (padC sa axes a (bc sa axes m)) (padC sb axes b (bc sb axes (partner s axes (org_of axes origin) idx m)))) idx.
Proof.
  intros s ND Ho Hi. unfold fftconv_c. cbv zeta. fold s.
  rewrite (shifted sa sb axes origin ND Ho idx Hi). fold s.
  set (idx' := fun ax => if mem ax axes then _ else idx ax).
  rewrite (ifftn_ext _ _ _ (fun i => cmul (fftn s axes (fun k => padC sa axes a (bc sa axes k)) i) (fftn s axes (fun k => padC sb axes b (bc sb axes k)) i)))
    by (intros i; rewrite !fftn_bc by auto; reflexivity).
  rewrite (conv_thm s axes ND _ _ idx' (idx'_in sa sb axes origin idx Hi)).
  unfold asum. rewrite !(rsum_base s axes _ idx idx' (idx'_out sa sb axes origin idx)).
  change (asum s axes (fun m => cmul (padC sa axes a (bc sa axes m)) (padC sb axes b (bc sb axes (cdiff s axes idx' m)))) idx =
          asum s axes (fun m => cmul (padC sa axes a (bc sa axes m)) (padC sb axes b (bc sb axes (partner s axes (org_of axes origin) idx m)))) idx).
  apply asum_ext_in. intros m Hm _. rewrite partner_cdiff by exact Hm. reflexivity.
Qed.
Print Assumptions C29_circular_complex.

Theorem C29_circular_real (sa sb : nat -> nat) (axes : list nat) (origin : option (list Z)) (a b : index -> R) (idx : index) :
  let s := dims sa sb in
  NoDup axes -> axes <> [] -> (forall o, origin = Some o -> length o = length axes) -> (forall ax, In ax axes -> (idx ax < s ax)%nat) ->
  fftconv_r sa sb axes origin a b idx =
  rsum s axes (fun m => padR sa axes a (bc sa axes m) * padR sb axes b (bc sb axes (partner s axes (org_of axes origin) idx m))) idx.
Proof.
  intros s ND Hne Ho Hi. unfold fftconv_r. cbv zeta. fold s.
  rewrite (shifted sa sb axes origin ND Ho idx Hi). fold s.
  set (idx' := fun ax => if mem ax axes then _ else idx ax).
  pose proof (idx'_in sa sb axes origin idx Hi) as Hi'. pose proof (rsum_base s axes) as RB.
  fold s in Hi'. fold idx' in Hi'.
  assert (Hb : forall sx (x : index -> R) i, rfftn s axes (padR sx axes x) (bc sx axes i) = rfftn s axes (fun k => padR sx axes x (bc sx axes k)) i).
  { intros sx x i. unfold rfftn.
    assert (Hl : In (last axes O) axes) by (destruct (exists_last Hne) as (r & l & ->); rewrite last_last; apply in_or_app; right; left; reflexivity).
    rewrite fftn_bc.
    - f_equal. extensionality k. apply dft_ax_bc. exact Hl.
    - intros ax Ha. destruct (exists_last Hne) as (r & l & ->). rewrite removelast_last in Ha. apply in_or_app. left. exact Ha. }
  replace (fun i => cmul (rfftn s axes (padR sa axes a) (bc sa axes i)) (rfftn s axes (padR sb axes b) (bc sb axes i))) with
    (fun i => cmul (rfftn s axes (fun k => padR sa axes a (bc sa axes k)) i) (rfftn s axes (fun k => padR sb axes b (bc sb axes k)) i))
    by (extensionality i; rewrite !Hb; reflexivity).
  assert (CT : irfftn s axes (fun i => cmul (rfftn s axes (fun k => padR sa axes a (bc sa axes k)) i) (rfftn s axes (fun k => padR sb axes b (bc sb axes k)) i)) idx' =
    rsum s axes (fun m => padR sa axes a (bc sa axes m) * padR sb axes b (bc sb axes (cdiff s axes idx' m))) idx').
  { clear -ND Hne Hi'. destruct (exists_last Hne) as (r & l & ->).
    apply (conv_thm_real s r l (fun k => padR sa (r ++ [l]) a (bc sa (r ++ [l]) k)) (fun k => padR sb (r ++ [l]) b (bc sb (r ++ [l]) k))); assumption. }
  rewrite CT, (RB _ idx idx') by (intros ax Hax; apply (idx'_out sa sb axes origin idx); exact Hax).
  apply rsum_ext_in. intros m Hm _. rewrite partner_cdiff by exact Hm. reflexivity.
Qed.
Print Assumptions C29_circular_real.

(** One axis, written out: sum_m a[m] b[n + origin - m]. *)
Corollary C29_circular_1d (na nb : nat) (o : Z) (a b : nat -> R) (n : nat) :
  let N := Nat.max na nb in
  let az k := if Nat.ltb k na then a k else 0 in
  let bz k := if Nat.ltb k nb then b k else 0 in
  (n < N)%nat ->
  fftconv_r (fun _ => na) (fun _ => nb) [O] (Some [o]) (fun i => a (i O)) (fun i => b (i O)) (fun _ => n) =
  sumn N (fun m => az m * bz (Z.to_nat ((Z.of_nat n + o - Z.of_nat m) mod Z.of_nat N))).
Proof.
  intros N az bz Hn. rewrite C29_circular_real.
  - simpl. apply sumn_ext. intros m _. unfold padR, inside, bc, partner, az, bz, dims. simpl. rewrite !andb_true_r. reflexivity.
  - repeat constructor. intros [].
  - discriminate.
  - intros o' E. injection E as <-. reflexivity.
  - intros ax _. exact Hn.
Qed.
Print Assumptions C29_circular_1d.
Example C29_ex : fftconv_r (fun _ => 3%nat) (fun _ => 2%nat) [O] (Some [1%Z]) (fun i => INR (i O)) (fun i => INR (1 + i O)) (fun _ => O) = 1.
Proof. rewrite (C29_circular_1d 3 2 1 INR (fun k => INR (1 + k)) 0) by (simpl; lia). simpl. cbv [Z.to_nat Pos.to_nat Pos.iter_op Nat.add Nat.ltb Nat.leb]. simpl. lra. Qed.
