(** C51: feasibility and step sizes of online dictionary learning. C69: its dictionary update is a gradient step. *)
Require Import Reals List Arith ZArith Bool Lia Lra FunctionalExtensionality.
Require Import Verif.RVec Verif.Cplx Verif.FftModel Verif.CnvrepModel Verif.OnlineModel Verif.OnlineSpec Verif.OnlineProofs.
Require Verif.PcnModel Verif.PcnSpec Verif.PcnProps Verif.PcnProofs.
Import ListNotations.
Local Open Scope R_scope.

(** ** C51: whatever the signals, the gradients and the exceptions, the dictionary satisfies the constraint *)
Theorem C51_feasible : forall (Gr Sig Rec : Type) a b d nv dN dC zm (gradient : PcnModel.arr -> Sig -> option Gr) descend (code : PcnModel.arr -> Sig -> Rec) D0 l,
  PcnSpec.fits dN nv d ->
  let D := PcnModel.zpad dN nv (o_D _ _ (onl_run _ _ _ _ a b (PcnModel.getPcn d nv dN dC true zm) gradient descend code D0 l)) in
  (forall i, PcnSpec.within nv dN i -> ~ PcnSpec.in_filter d dN i -> PcnModel.val D i = 0) /\
  (zm = true -> forall i, rsum (PcnModel.shp D) (seq 0 dN) (PcnModel.val D) i = 0) /\
  (forall i, PcnSpec.dot (PcnModel.shp D) (dN + dC) (PcnModel.val D) (PcnModel.val D) i = 1 \/
    forall k, PcnSpec.within (PcnModel.shp D) (dN + dC) k -> (forall ax, (dN + dC <= ax)%nat -> k ax = i ax) -> PcnModel.val D k = 0).
Proof.
  intros Gr Sig Rec a b d nv dN dC zm gradient descend code D0 l F D.
  assert (H : exists x, D = PcnProps.projected d nv dN dC true zm x).
  { unfold D. clear D. induction l as [|s l IH] using rev_ind; [exists D0; reflexivity|].
    unfold onl_run. rewrite fold_left_app. cbn [fold_left]. fold (onl_run PcnModel.arr Gr Sig Rec a b (PcnModel.getPcn d nv dN dC true zm) gradient descend code D0 l).
    set (st := onl_run _ _ _ _ _ _ _ _ _ _ _ _) in *. unfold onl_solve.
    destruct (gradient (o_D _ _ st) s) as [g|]; [|exact IH]. destruct (descend _ g _) as [G|]; [exists G; reflexivity|exact IH]. }
  destruct H as [x Ex]. rewrite Ex. assert (V : PcnProps.variant_ok dN true zm) by (left; reflexivity).
  rewrite PcnProps.projected_shape by exact V. split; [|split].
  - intros i W N. apply PcnProps.C31_support; assumption.
  - intros -> i. apply PcnProps.C31_zero_mean; assumption.
  - intros i. destruct (PcnProps.C31_unit_norm d nv dN dC true zm x i F V) as [H _]. exact H.
Qed.

(** The counter is the number of records, the i-th record has number i and step size a/(i+b), and the last one is the
    attribute eta; each call adds a record unless it raises an exception. *)
Theorem C51_records : forall A Gr Sig Rec a b pcn gradient descend code D0 (l : list Sig),
  let run := fun l => onl_run A Gr Sig Rec a b pcn gradient descend code D0 l in
  let s := run l in
  o_j _ _ s = length (o_it _ _ s) /\
  (forall i n r e, nth_error (o_it _ _ s) i = Some (n, r, e) -> n = i /\ e = a / (INR i + b)) /\
  (forall x g G, gradient (o_D _ _ s) x = Some g -> descend (o_D _ _ s) g (a / (INR (o_j _ _ s) + b)) = Some G ->
     o_it _ _ (run (l ++ [x])) = o_it _ _ s ++ [(o_j _ _ s, code (o_D _ _ s) x, a / (INR (o_j _ _ s) + b))] /\
     o_eta _ _ (run (l ++ [x])) = a / (INR (o_j _ _ s) + b) /\ o_D _ _ (run (l ++ [x])) = pcn G /\ o_Dprv _ _ (run (l ++ [x])) = o_D _ _ s) /\
  ((forall D x, gradient D x <> None) -> (forall D g e, descend D g e <> None) -> o_j _ _ s = length l).
Proof.
  intros A Gr Sig Rec a b pcn gradient descend code D0 l run s.
  assert (Run : forall l x, run (l ++ [x]) = onl_solve A Gr Sig Rec a b pcn gradient descend code (run l) x) by (intros; unfold run, onl_run; rewrite fold_left_app; reflexivity).
  assert (J : o_j _ _ s = length (o_it _ _ s)).
  { unfold s. clear s. induction l as [|x l IH] using rev_ind; [reflexivity|]. rewrite Run. unfold onl_solve.
    destruct (gradient _ x) as [g|]; [|exact IH]. destruct (descend _ g _) as [G|]; [|exact IH]. cbn [o_j o_it]. rewrite app_length, IH. simpl. lia. }
  split; [exact J|]. split; [|split].
  - unfold s in *. clear s. induction l as [|x l IH] using rev_ind; intros i n r e E; [destruct i; discriminate|].
    rewrite Run in E, J. unfold onl_solve in E, J.
    assert (J' : o_j _ _ (run l) = length (o_it _ _ (run l))).
    { destruct (gradient _ x) as [g|]; [|exact J]. destruct (descend _ g _) as [G|]; [|exact J]. cbn [o_j o_it] in J. rewrite app_length in J. simpl in J. lia. }
    specialize (IH J').
    destruct (gradient _ x) as [g|]; [|exact (IH _ _ _ _ E)]. destruct (descend _ g _) as [G|]; [|exact (IH _ _ _ _ E)]. cbn [o_it] in E.
    destruct (Nat.lt_ge_cases i (length (o_it _ _ (run l)))) as [L|L].
    + rewrite nth_error_app1 in E by exact L. exact (IH _ _ _ _ E).
    + rewrite nth_error_app2 in E by exact L. rewrite <- J' in *. destruct (i - o_j _ _ (run l))%nat as [|q] eqn:Q; [|destruct q; discriminate].
      simpl in E. assert (i = o_j _ _ (run l)) by lia. subst i. injection E as <- <- <-. split; reflexivity.
  - intros x g G Eg EG. rewrite Run. unfold onl_solve. fold s. rewrite Eg, EG. repeat split.
  - intros Hg Hd. unfold s in *. clear s J. induction l as [|x l IH] using rev_ind; [reflexivity|]. rewrite Run, app_length. unfold onl_solve.
    destruct (gradient _ x) as [g|] eqn:E; [|destruct (Hg _ _ E)]. destruct (descend _ g _) as [G|] eqn:E'; [|destruct (Hd _ _ _ E')]. cbn [o_j]. simpl. lia.
Qed.

Lemma ln1p x : 0 < x -> ln (1 + x) <= x.
Proof.
  intros H. left. rewrite <- (ln_exp x) at 2. apply ln_increasing; [lra|]. apply exp_ineq1. lra.
Qed.
Lemma INR_unbounded (B : R) : exists n, B < INR n.
Proof.
  exists (Z.to_nat (up (Rmax B 0))). pose proof (archimed (Rmax B 0)) as [H _]. pose proof (Rmax_l B 0). pose proof (Rmax_r B 0).
  rewrite INR_IZR_INZ, Z2Nat.id; [lra|]. apply le_IZR. lra.
Qed.
(** The step sizes are positive and strictly decreasing, their sum diverges and that of their squares is bounded: the
    conditions for stochastic gradient descent. *)
Theorem C51_step_sizes : forall a b, 0 < a -> 0 < b ->
  (forall i, 0 < a / (INR i + b)) /\
  (forall i j, (i < j)%nat -> a / (INR j + b) < a / (INR i + b)) /\
  (forall B, exists n, B < sumn n (fun i => a / (INR i + b))) /\
  (forall n, sumn n (fun i => (a / (INR i + b)) * (a / (INR i + b))) <= a * a / (b * b) + a * a / b).
Proof.
  intros a b Ha Hb. assert (P : forall i, 0 < INR i + b) by (intros i; pose proof (pos_INR i); lra).
  split; [|split; [|split]].
  - intros i. apply Rdiv_lt_0_compat; [exact Ha|apply P].
  - intros i j H. apply lt_INR in H. unfold Rdiv. apply Rmult_lt_compat_l; [exact Ha|]. apply Rinv_lt_contravar; [apply Rmult_lt_0_compat; apply P|lra].
  - assert (L : forall n, a * (ln (INR n + b) - ln b) <= sumn n (fun i => a / (INR i + b))).
    { induction n as [|n IH]; [simpl; rewrite Rplus_0_l; lra|]. cbn [sumn]. rewrite S_INR.
      assert (E : ln (INR n + 1 + b) = ln (INR n + b) + ln (1 + / (INR n + b))).
      { rewrite <- ln_mult; [|apply P|pose proof (Rinv_0_lt_compat _ (P n)); lra]. f_equal. field. pose proof (P n); lra. }
      rewrite E. pose proof (ln1p (/ (INR n + b)) (Rinv_0_lt_compat _ (P n))) as Hl.
      apply (Rmult_le_compat_l a) in Hl; [|lra]. unfold Rdiv in *. lra. }
    intros B. destruct (INR_unbounded (exp (B / a + ln b))) as [n Hn]. exists n. apply Rlt_le_trans with (2 := L n).
    assert (B / a + ln b < ln (INR n + b)).
    { rewrite <- (ln_exp (B / a + ln b)). apply ln_increasing; [apply exp_pos|lra]. }
    apply (Rmult_lt_reg_r (/ a)); [apply Rinv_0_lt_compat; exact Ha|]. replace (a * (ln (INR n + b) - ln b) * / a) with (ln (INR n + b) - ln b) by (field; lra).
    unfold Rdiv in *. lra.
  - assert (L : forall n, sumn (S n) (fun i => (a / (INR i + b)) * (a / (INR i + b))) <= a * a / (b * b) + a * a / b - a * a / (INR n + b)).
    { induction n as [|n IH].
      - cbn [sumn]. simpl INR. rewrite Rplus_0_l. right. field. lra.
      - cbn [sumn] in *. pose proof (P n) as H1. pose proof (P (S n)) as H2. rewrite S_INR in *.
        assert (a / (INR n + 1 + b) * (a / (INR n + 1 + b)) <= a * a / (INR n + b) - a * a / (INR n + 1 + b)); [|lra].
        replace (a * a / (INR n + b) - a * a / (INR n + 1 + b)) with (a * a * (/ (INR n + 1 + b) * / (INR n + b))) by (field; lra).
        replace (a / (INR n + 1 + b) * (a / (INR n + 1 + b))) with (a * a * (/ (INR n + 1 + b) * / (INR n + 1 + b))) by (field; lra).
        apply Rmult_le_compat_l; [nra|]. apply Rmult_le_compat_l; [left; apply Rinv_0_lt_compat; exact H2|]. apply Rinv_le_contravar; lra. }
    intros [|n].
    + simpl. assert (0 < a * a / (b * b)) by (apply Rdiv_lt_0_compat; nra). assert (0 < a * a / b) by (apply Rdiv_lt_0_compat; nra). lra.
    + pose proof (L n). assert (0 < a * a / (INR n + b)) by (apply Rdiv_lt_0_compat; [nra|apply P]). lra.
Qed.

(** Three calls, the second of which raises an exception: two records, with step sizes 10/5 and 10/6. *)
Example C51_ex : let s := onl_run R R (option R) unit 10 5 (fun x => x) (fun _ x => x) (fun d g e => Some (d - e * g)) (fun _ _ => tt) 1 [Some 1; None; Some 3] in
  o_j _ _ s = 2%nat /\ o_it _ _ s = [(0%nat, tt, 10 / (0 + 5)); (1%nat, tt, 10 / (1 + 5))] /\ o_D _ _ s = 1 - 10 / (0 + 5) * 1 - 10 / (1 + 5) * 3.
Proof. repeat split. Qed.

(** ** C69 *)
Lemma is_gradient_ext nC nK nM z s d g g' : (forall c m, (c < nC)%nat -> (m < nM)%nat -> g c m = g' c m) -> is_gradient nC nK nM z s d g -> is_gradient nC nK nM z s d g'.
Proof.
  intros E H h. rewrite H. f_equal. f_equal. apply sumn_ext. intros c Hc. apply sumn_ext. intros m Hm. rewrite E by assumption. reflexivity.
Qed.
Lemma is_gradient1_ext nC nK nM z s d g g' : (forall m, (m < nM)%nat -> g m = g' m) -> is_gradient1 nC nK nM z s d g -> is_gradient1 nC nK nM z s d g'.
Proof. intros E H h. rewrite H. f_equal. f_equal. apply sumn_ext. intros m Hm. rewrite E by assumption. reflexivity. Qed.

(** The gradient step computed from coefficients [zf] of [k] signals. *)
Lemma grad_value cr nC nK nM df zf sf : nc zf = 1%nat -> nk zf = nK -> nm zf = nM -> nc df = nC -> nk df = 1%nat -> nm df = nM ->
  nc sf = nC -> (nk sf = nK \/ nk sf = 1%nat) -> nm sf = 1%nat -> ((1 <? C cr) && (Cd cr =? 1))%nat = false ->
  exists g, grad cr df zf sf = Some g /\ nc g = nC /\ nk g = 1%nat /\ nm g = nM /\
    forall c m, (c < nC)%nat -> (m < nM)%nat -> val g c 0%nat m = csumn nK (fun k => cmul (conj (val zf 0%nat k m))
      (resid nM (fun m => val zf 0%nat k m) (fun m => val df c 0%nat m) (val sf c (bix (nk sf) k) 0%nat))).
Proof.
  intros Z1 Z2 Z3 D1 D2 D3 S1 S2 S3 G. unfold grad, innerM, zip. rewrite Z1, Z2, Z3, D1, D2, D3, bdim_1l, bdim_1r, bdim_same.
  cbn [option_map obind sumM nc nk nm]. rewrite S1, S3, bdim_same, bdim_same.
  assert (Bk : bdim nK (nk sf) = Some nK) by (destruct S2 as [-> | ->]; [apply bdim_same|apply bdim_1r]). rewrite Bk. cbn [obind innerK]. unfold innerK, zip, conj3.
  cbn [nc nk nm]. rewrite Z1, Z2, Z3, bdim_1l, bdim_same, bdim_1r. cbn [option_map obind]. rewrite G. eexists. split; [reflexivity|].
  cbn [sumK nc nk nm val]. repeat split. intros c m Hc Hm. apply csumn_ext. intros k Hk. unfold at3. cbn [sumM nc nk nm val].
  rewrite ?Z1, ?Z2, ?Z3, ?D1, ?D2, ?D3, ?S1, ?S3, !bix_1, !(bix_lt nC c Hc), !(bix_lt nK k Hk), (bix_lt nM m Hm). f_equal. unfold resid. f_equal.
  apply csumn_ext. intros m' Hm'. rewrite !(bix_lt nM m' Hm'). reflexivity.
Qed.

(** A dictionary with as many channels as the signals (and any number of them, or a single-channel dictionary and
    single-channel signals): the code computes the gradient of the data fidelity of the signals of the call. *)
Theorem C69_gradient : forall cr df z sf, Cd cr = C cr -> Cx cr = 1%nat ->
  nc z = Cx cr -> nk z = K cr -> nm z = M cr -> nc df = Cd cr -> nk df = 1%nat -> nm df = M cr -> nc sf = C cr -> nk sf = K cr -> nm sf = 1%nat ->
  exists g, call_grad cr (Cx cr) (K cr) df z sf = Some g /\ nc g = Cd cr /\ nk g = 1%nat /\ nm g = M cr /\
    is_gradient (C cr) (K cr) (M cr) (fun k m => val z 0%nat k m) (fun c k => val sf c k 0%nat) (fun c m => val df c 0%nat m) (fun c m => val g c 0%nat m).
Proof.
  intros cr df z sf HC HX Z1 Z2 Z3 D1 D2 D3 S1 S2 S3. rewrite HX in Z1.
  assert (G : ((1 <? C cr) && (Cd cr =? 1))%nat = false).
  { rewrite HC. destruct (Nat.ltb_spec 1 (C cr)); [|reflexivity]. destruct (Nat.eqb_spec (C cr) 1); [lia|reflexivity]. }
  unfold call_grad, setcoef. rewrite andb_comm in G. rewrite G. rewrite andb_comm in G. rewrite Z1, Z2, Z3, HX. unfold fits. rewrite !Nat.eqb_refl. cbn [andb orb obind].
  set (zf := mkA 1 (K cr) (M cr) (fun c k m => at3 z c k m)).
  destruct (grad_value cr (C cr) (K cr) (M cr) df zf sf) as (g & E & G1 & G2 & G3 & V); try reflexivity; try assumption; [congruence|left; exact S2|].
  exists g. split; [exact E|]. split; [congruence|]. split; [exact G2|]. split; [exact G3|].
  eapply is_gradient_ext; [|apply fidelity_gradient]. intros c m Hc Hm. cbv beta. rewrite (V c m Hc Hm). apply csumn_ext. intros k Hk.
  unfold zf, at3. cbn [val]. rewrite Z1, Z2, Z3, S2, !bix_1, !(bix_lt _ k Hk), (bix_lt _ m Hm). f_equal. unfold resid. f_equal. apply csumn_ext. intros m' Hm'. rewrite (bix_lt _ m' Hm'). reflexivity.
Qed.

(** ** The layouts of the two classes agree, when no axis of the dictionary but the signal axis has length one *)
Lemma squeeze_id l : Forall (fun n => n <> 1%nat) l -> squeeze l = l.
Proof. induction 1 as [|n l H _ IH]; [reflexivity|]. unfold squeeze in *. cbn [filter]. destruct (Nat.eqb_spec n 1); [contradiction|]. cbn [negb]. rewrite IH. reflexivity. Qed.
Lemma squeeze_app a b : squeeze (a ++ b) = squeeze a ++ squeeze b.
Proof. apply filter_app. Qed.
Lemma pyidx_end t i (l : list nat) x : (i < 0)%Z -> nth_error l (Z.to_nat (i + Z.of_nat (length l))) = Some x -> (0 <= i + Z.of_nat (length l))%Z -> t = l -> pyidx t i = Ok x.
Proof.
  intros H1 H2 H3 ->. unfold pyidx. destruct (Z.ltb_spec i 0); [|lia]. destruct (Z.ltb_spec (i + Z.of_nat (length l)) 0); [lia|]. rewrite H2. reflexivity.
Qed.
Lemma layout_spat dN dCd cd m Ssh dK d1 d2 c1 : layout dN dCd cd m Ssh dK d1 = Ok c1 ->
  exists c2, layout dN dCd cd m Ssh dK d2 = Ok c2 /\ C c2 = C c1 /\ Cx c2 = Cx c1 /\ K c2 = K c1 /\ M c2 = M c1 /\ Cd c2 = Cd c1.
Proof.
  unfold layout. destruct (infer_dims (length Ssh) dN dCd dK) as [dC dK']. destruct (if (dC =? 1)%Z then _ else _) as [c| |]; cbn [bind]; try discriminate.
  destruct (_ && _)%bool; [discriminate|]. destruct (if (dK' =? 1)%Z then _ else _) as [k| |]; cbn [bind]; try discriminate. intros E. injection E as <-.
  eexists. split; [reflexivity|]. repeat split.
Qed.
Lemma layout_Cx dN dCd cd m Ssh dK d1 c1 : layout dN dCd cd m Ssh dK d1 = Ok c1 -> Cd c1 = cd /\ Cx c1 = (C c1 + 1 - cd)%nat /\ ((1 < cd)%nat -> C c1 = cd) /\ M c1 = m.
Proof.
  unfold layout. destruct (infer_dims (length Ssh) dN dCd dK) as [dC dK']. destruct (if (dC =? 1)%Z then _ else _) as [c| |]; cbn [bind]; try discriminate.
  destruct (Nat.ltb_spec 1 cd); cbn [andb].
  - destruct (Nat.eqb_spec c cd); cbn [negb]; [|discriminate]. destruct (if (dK' =? 1)%Z then _ else _) as [k| |]; cbn [bind]; try discriminate. intros E. injection E as <-. cbn. repeat split; try lia.
  - destruct (if (dK' =? 1)%Z then _ else _) as [k| |]; cbn [bind]; try discriminate. intros E. injection E as <-. cbn. repeat split; try lia.
Qed.
Lemma nth_last2 (l : list nat) a b n : n = length l -> nth_error (l ++ [a; b]) n = Some a /\ nth_error (l ++ [a; b]) (S n) = Some b.
Proof. intros ->. split; (rewrite nth_error_app2 by lia); [rewrite Nat.sub_diag|replace (S (length l) - length l)%nat with 1%nat by lia]; reflexivity. Qed.
Lemma nth_last1 (l : list nat) b n : n = length l -> nth_error (l ++ [b]) n = Some b.
Proof. intros ->. rewrite nth_error_app2, Nat.sub_diag by lia. reflexivity. Qed.

Lemma index_multi spat cd m Ssh dK : Forall (fun n => n <> 1%nat) spat -> cd <> 1%nat -> m <> 1%nat ->
  csc_index (squeeze (spat ++ [cd; 1%nat; m])) Ssh dK (length spat) = layout (length spat) 1 cd m Ssh dK spat /\
  cdu_index (Flat (spat ++ [cd; m])) Ssh dK (length spat) = layout (length spat) 1 cd m Ssh dK (firstn (length spat) Ssh).
Proof.
  intros H1 H2 H3. assert (Sq : squeeze (spat ++ [cd; 1%nat; m]) = spat ++ [cd; m]).
  { rewrite squeeze_app, (squeeze_id spat H1). f_equal. unfold squeeze. cbn [filter]. destruct (Nat.eqb_spec cd 1); [contradiction|]. destruct (Nat.eqb_spec m 1); [contradiction|]. reflexivity. }
  destruct (nth_last2 spat cd m (length spat) eq_refl) as [N1 N2].
  assert (L : length (spat ++ [cd; m]) = (length spat + 2)%nat) by (rewrite app_length; reflexivity).
  assert (I2 : pyidx (spat ++ [cd; m]) (-2) = Ok cd).
  { eapply pyidx_end; [lia| |rewrite L; lia|reflexivity]. rewrite L. replace (Z.to_nat (-2 + Z.of_nat (length spat + 2))) with (length spat) by lia. exact N1. }
  assert (I1 : pyidx (spat ++ [cd; m]) (-1) = Ok m).
  { eapply pyidx_end; [lia| |rewrite L; lia|reflexivity]. rewrite L. replace (Z.to_nat (-1 + Z.of_nat (length spat + 2))) with (S (length spat)) by lia. exact N2. }
  split.
  - unfold csc_index. rewrite Sq, L. replace (Z.of_nat (length spat + 2) - (Z.of_nat (length spat) + 1))%Z with 1%Z by lia. cbn [Z.eqb Pos.eqb]. rewrite I2, I1. cbn [bind].
    rewrite firstn_app, Nat.sub_diag, firstn_all. cbn [firstn]. rewrite app_nil_r. reflexivity.
  - unfold cdu_index, dict_size. rewrite I1, L. destruct (Nat.eqb_spec (length spat + 2) (length spat + 1)); [lia|]. rewrite I2. cbn [bind ds_ndim ds_nchn ds_nflt].
    replace (Z.of_nat (length spat + 2) - Z.of_nat (length spat) - 1)%Z with 1%Z by lia. reflexivity.
Qed.
Lemma index_single spat m Ssh dK : Forall (fun n => n <> 1%nat) spat -> m <> 1%nat ->
  csc_index (squeeze (spat ++ [1; 1; m]%nat)) Ssh dK (length spat) = layout (length spat) 0 1 m Ssh dK spat /\
  cdu_index (Flat (spat ++ [m])) Ssh dK (length spat) = layout (length spat) 0 1 m Ssh dK (firstn (length spat) Ssh) /\
  cdu_index (Flat (spat ++ [1%nat; m])) Ssh dK (length spat) = layout (length spat) 1 1 m Ssh dK (firstn (length spat) Ssh).
Proof.
  intros H1 H3. assert (Sq : squeeze (spat ++ [1%nat; 1%nat; m]) = spat ++ [m]).
  { rewrite squeeze_app, (squeeze_id spat H1). f_equal. unfold squeeze. cbn [filter]. destruct (Nat.eqb_spec m 1); [contradiction|]. reflexivity. }
  assert (L : length (spat ++ [m]) = (length spat + 1)%nat) by (rewrite app_length; reflexivity).
  assert (I1 : pyidx (spat ++ [m]) (-1) = Ok m).
  { eapply pyidx_end; [lia| |rewrite L; lia|reflexivity]. rewrite L. replace (Z.to_nat (-1 + Z.of_nat (length spat + 1))) with (length spat) by lia. apply nth_last1. reflexivity. }
  split; [|split].
  - unfold csc_index. rewrite Sq, L. replace (Z.of_nat (length spat + 1) - (Z.of_nat (length spat) + 1))%Z with 0%Z by lia. cbn [Z.eqb bind]. rewrite I1. cbn [bind].
    rewrite firstn_app, Nat.sub_diag, firstn_all. cbn [firstn]. rewrite app_nil_r. reflexivity.
  - unfold cdu_index, dict_size. rewrite I1, L, Nat.eqb_refl. cbn [bind ds_ndim ds_nchn ds_nflt].
    replace (Z.of_nat (length spat + 1) - Z.of_nat (length spat) - 1)%Z with 0%Z by lia. reflexivity.
  - destruct (nth_last2 spat 1 m (length spat) eq_refl) as [N1 N2].
    assert (L2 : length (spat ++ [1%nat; m]) = (length spat + 2)%nat) by (rewrite app_length; reflexivity).
    unfold cdu_index, dict_size. rewrite (pyidx_end (spat ++ [1%nat; m]) (-1) (spat ++ [1%nat; m]) m), L2; [|lia|rewrite L2; replace (Z.to_nat (-1 + Z.of_nat (length spat + 2))) with (S (length spat)) by lia; exact N2|rewrite L2; lia|reflexivity].
    destruct (Nat.eqb_spec (length spat + 2) (length spat + 1)); [lia|].
    rewrite (pyidx_end (spat ++ [1%nat; m]) (-2) (spat ++ [1%nat; m]) 1%nat); [|lia|rewrite L2; replace (Z.to_nat (-2 + Z.of_nat (length spat + 2))) with (length spat) by lia; exact N1|rewrite L2; lia|reflexivity].
    cbn [bind ds_ndim ds_nchn ds_nflt]. replace (Z.of_nat (length spat + 2) - Z.of_nat (length spat) - 1)%Z with 1%Z by lia. reflexivity.
Qed.

(** A fresh object and a multi-channel dictionary, or a single-channel one and signals taken to be single-channel: every
    call accepted by init_vars meets the hypotheses of [C69_gradient], the sparse coding using the same layout. *)
Theorem C69_layout : forall spat cd m Ssh dK cr zc zk, Forall (fun n => n <> 1%nat) spat -> (0 < cd)%nat -> m <> 1%nat ->
  let dsz := if (cd =? 1)%nat then spat ++ [m] else spat ++ [cd; m] in
  init_vars None (Flat dsz) Ssh dK (length spat) = Ok (cr, zc, zk) -> C cr = cd ->
  zc = Cx cr /\ zk = K cr /\ Cd cr = C cr /\ Cx cr = 1%nat /\ M cr = m /\
  xstep_layout (spat ++ [cd; 1%nat; m]) Ssh dK (length spat) = Ok (Cx cr, K cr, C cr, K cr).
Proof.
  intros spat cd m Ssh dK cr zc zk H1 H2 H3 dsz E HC. unfold init_vars in E.
  assert (X : exists dCd, csc_index (squeeze (spat ++ [cd; 1%nat; m])) Ssh dK (length spat) = layout (length spat) dCd cd m Ssh dK spat /\
                          cdu_index (Flat dsz) Ssh dK (length spat) = layout (length spat) dCd cd m Ssh dK (firstn (length spat) Ssh)).
  { unfold dsz. destruct (Nat.eqb_spec cd 1) as [->|N].
    - exists 0%Z. destruct (index_single spat m Ssh dK H1 H3) as (A1 & A2 & _). split; assumption.
    - exists 1%Z. apply index_multi; assumption. }
  destruct X as (dCd & A1 & A2). rewrite A2 in E. destruct (layout _ _ _ _ _ _ (firstn _ _)) as [cr'| |] eqn:EL; cbn [bind] in E; try discriminate.
  assert (cr' = cr /\ Cx cr' = zc /\ K cr' = zk) as (-> & <- & <-) by (split; [congruence|split; congruence]).
  destruct (layout_Cx _ _ _ _ _ _ _ _ EL) as (B1 & B2 & B3 & B4). destruct (layout_spat _ _ _ _ _ _ _ spat _ EL) as (c2 & F & F1 & F2 & F3 & F4 & F5).
  repeat split; try congruence; [rewrite B2; lia|]. unfold xstep_layout. rewrite A1, F. cbn [bind]. rewrite F1, F2, F3. reflexivity.
Qed.

(** ** A single-channel dictionary and multi-channel signals *)
(** DictSize with a channel axis of length one, and no signal axis: the sparse coding takes the channels for signals, and the
    gradient is that of the sum over the channels. *)
Theorem C69_shared : forall cr df z sf, Cd cr = 1%nat -> (1 < C cr)%nat -> Cx cr = C cr -> K cr = 1%nat ->
  nc z = 1%nat -> nk z = C cr -> nm z = M cr -> nc df = 1%nat -> nk df = 1%nat -> nm df = M cr -> nc sf = 1%nat -> nk sf = C cr -> nm sf = 1%nat ->
  forall zc zk, exists g, call_grad cr zc zk df z sf = Some g /\ nc g = 1%nat /\ nk g = 1%nat /\ nm g = M cr /\
    is_gradient1 (C cr) 1 (M cr) (fun c _ m => val z 0%nat c m) (fun c _ => val sf 0%nat c 0%nat) (fun m => val df 0%nat 0%nat m) (fun m => val g 0%nat 0%nat m).
Proof.
  intros cr df z sf HCd HC HX HK Z1 Z2 Z3 D1 D2 D3 S1 S2 S3 zc zk. unfold call_grad, setcoef, reshape1.
  rewrite HCd. destruct (Nat.ltb_spec 1 (C cr)) as [L|]; [|lia]. rewrite Z1, Z2, HX, HK, Nat.mul_1_l, Nat.mul_1_r, !Nat.eqb_refl. cbn [andb obind].
  set (zf := mkA _ _ _ _). unfold grad, innerM, zip. unfold zf at 1 2 3. cbn [nc nk nm]. rewrite D1, D2, D3, Z3, bdim_1l, bdim_1r, bdim_same.
  cbn [option_map obind sumM nc nk nm]. rewrite S1, S2, S3, !bdim_same. cbn [obind]. unfold innerK, zip, conj3. cbn [nc nk nm]. unfold zf at 1 2 3. cbn [nc nk nm].
  rewrite Z3, !bdim_same, bdim_1r. cbn [option_map obind]. destruct (Nat.ltb_spec 1 (C cr)) as [_|]; [|lia]. rewrite HCd, Nat.eqb_refl. cbn [andb]. eexists. split; [reflexivity|].
  cbn [sumK sumC nc nk nm val]. repeat split. eapply is_gradient1_ext; [|apply fidelity1_gradient]. intros m Hm. cbv beta. rewrite csumn_S, csumn_O.
  match goal with |- ?x = _ => transitivity (csumn (C cr) (fun c => cmul (conj (val z 0%nat c m)) (resid (M cr) (fun m0 => val z 0%nat c m0) (fun m0 => val df 0%nat 0%nat m0) (val sf 0%nat c 0%nat)))) end.
  { apply csumn_ext. intros c Hc. rewrite csumn_S, csumn_O. ring. }
  transitivity (cadd c0 (csumn (C cr) (fun c => cmul (conj (val z 0%nat c m)) (resid (M cr) (fun m0 => val z 0%nat c m0) (fun m0 => val df 0%nat 0%nat m0) (val sf 0%nat c 0%nat))))); [ring|]. f_equal.
  apply csumn_ext. intros c Hc. unfold at3, zf. cbn [sumM nc nk nm val]. rewrite ?D1, ?D2, ?D3, ?S1, ?S2, ?S3, ?Z2, ?Z3, !bix_1, !(bix_lt _ c Hc), (bix_lt _ m Hm).
  rewrite Nat.div_small, Nat.mod_small by exact Hc. f_equal. unfold resid. f_equal. apply csumn_ext. intros m' Hm'. rewrite !(bix_lt _ m' Hm').
  reflexivity.
Qed.

(** With a signal axis the sparse coding keeps the channels apart (as it does in the masked solver, whose signals have the
    layout of the dictionary update): with one signal the code computes the residual of every channel with the coefficients
    of every other; with several signals it raises an exception. *)
Theorem C69_pairs : forall cr df z sf zc zk, Cd cr = 1%nat -> (1 < C cr)%nat -> Cx cr = C cr ->
  nc z = C cr -> nk z = K cr -> nm z = M cr -> nc df = 1%nat -> nk df = 1%nat -> nm df = M cr -> nc sf = C cr -> nk sf = K cr -> nm sf = 1%nat ->
  (K cr = 1%nat -> exists g, call_grad cr zc zk df z sf = Some g /\ nc g = 1%nat /\ nk g = 1%nat /\ nm g = M cr /\ forall m, (m < M cr)%nat ->
     val g 0%nat 0%nat m = csumn (C cr) (fun c => csumn (C cr) (fun b => cmul (conj (val z b 0%nat m))
        (csub (csumn (M cr) (fun m' => cmul (val z b 0%nat m') (val df 0%nat 0%nat m'))) (val sf c 0%nat 0%nat))))) /\
  ((1 < K cr)%nat -> call_grad cr zc zk df z sf = None).
Proof.
  intros cr df z sf zc zk HCd HC HX Z1 Z2 Z3 D1 D2 D3 S1 S2 S3.
  unfold call_grad, setcoef, reshape1. rewrite HCd. destruct (Nat.ltb_spec 1 (C cr)) as [L|]; [|lia]. rewrite Z1, Z2, HX, !Nat.eqb_refl. cbn [andb obind].
  set (zf := mkA _ _ _ _). unfold grad, innerM, zip. unfold zf at 1 2 3 7 8 9. cbn [nc nk nm]. rewrite D1, D2, D3, Z3, bdim_1l, bdim_1r, bdim_same.
  cbn [option_map obind sumM nc nk nm]. rewrite S1, S2, S3, bdim_1l, bdim_1l. split.
  - intros HK. subst zf. rewrite HK, Nat.mul_1_r, bdim_1r. cbn [obind]. unfold innerK, zip, conj3. cbn [nc nk nm]. rewrite Z3, bdim_1l, bdim_same, bdim_1r. cbn [option_map obind].
    destruct (Nat.ltb_spec 1 (C cr)) as [_|]; [|lia]. rewrite HCd, Nat.eqb_refl. cbn [andb]. eexists. split; [reflexivity|].
    cbn [sumK sumC nc nk nm val]. split; [reflexivity|]. split; [reflexivity|]. split; [try reflexivity; exact Z3|]. intros m Hm. apply csumn_ext. intros c Hc. apply csumn_ext. intros b Hb. unfold at3. cbn [sumM nc nk nm val].
    rewrite ?D1, ?D2, ?D3, ?S1, ?S2, ?S3, ?Z2, ?Z3, ?HK, !bix_1, !(bix_lt _ b Hb), (bix_lt _ m Hm), (bix_lt _ c Hc).
    rewrite Nat.div_1_r, Nat.mod_1_r. f_equal. rewrite ?(bix_lt (C cr) c Hc). f_equal. apply csumn_ext. intros m' Hm'. rewrite !(bix_lt _ m' Hm'). rewrite ?Nat.div_1_r, ?Nat.mod_1_r. reflexivity.
  - intros HK. assert (B : bdim (C cr * K cr) (K cr) = None); [|subst zf; cbn [nc]; rewrite bdim_same; cbn [option_map obind sumM nc nk nm]; rewrite ?bdim_1l, B; reflexivity]. unfold bdim.
    destruct (Nat.eqb_spec (C cr * K cr) (K cr)); [nia|]. destruct (Nat.eqb_spec (C cr * K cr) 1); [nia|]. destruct (Nat.eqb_spec (K cr) 1); [lia|]. reflexivity.
Qed.

(** Two filters, two channels and one signal. The residuals of both channels are zero, so that the dictionary is a minimum,
    but the code computes a nonzero gradient. *)
Theorem C69_shared_refuted : exists cr zc zk df z sf g,
  init_vars None (Flat [8; 8; 2]%nat) [16; 16; 2; 1]%nat None 2 = Ok (cr, zc, zk) /\
  xstep_layout [8; 8; 1; 1; 2]%nat [16; 16; 2; 1]%nat None 2 = Ok (nc z, nk z, nc sf, nk sf) /\
  nm z = 2%nat /\ nc df = 1%nat /\ nk df = 1%nat /\ nm df = 2%nat /\ nm sf = 1%nat /\
  call_grad cr zc zk df z sf = Some g /\
  is_gradient1 2 1 2 (val z) (fun c k => val sf c k 0%nat) (fun m => val df 0%nat 0%nat m) (fun _ => c0) /\
  ~ is_gradient1 2 1 2 (val z) (fun c k => val sf c k 0%nat) (fun m => val df 0%nat 0%nat m) (fun m => val g 0%nat 0%nat m).
Proof.
  pose (d1 := fun c m : nat => if (c + m =? 0)%nat then c1 else c0). pose (s := mkA 2 1 1 (fun c _ _ => d1 c 0%nat)). pose (z := mkA 2 1 2 (fun c _ m => d1 c m)). pose (df := mkA 1 1 2 (fun _ _ _ => c1)).
  pose (cr := mkCri 2 0 1 1 1 2 2 1 2 [16; 16]%nat [16; 16; 1; 1; 2]%nat [16; 16; 2; 1; 1]%nat [16; 16; 2; 1; 2]%nat).
  destruct (C69_pairs cr df z s 2%nat 1%nat eq_refl ltac:(cbn; lia) eq_refl eq_refl eq_refl eq_refl eq_refl eq_refl eq_refl eq_refl eq_refl eq_refl) as [H _].
  destruct (H eq_refl) as (g & Eg & G1 & G2 & G3 & V). clear H.
  exists cr, 2%nat, 1%nat, df, z, s, g.
  split; [reflexivity|]. split; [reflexivity|]. do 5 (split; [reflexivity|]). split; [exact Eg|].
  assert (H0 : is_gradient1 2 1 2 (val z) (fun c k => val s c k 0%nat) (fun m => val df 0%nat 0%nat m) (fun _ => c0)).
  { eapply is_gradient1_ext; [|apply fidelity1_gradient]. intros m Hm. cbv beta. destruct m as [|[|m]]; [| |lia];
    rewrite !csumn_S, !csumn_O; unfold resid; rewrite ?csumn_S, ?csumn_O; ceq; ring. }
  split; [exact H0|]. intros H1. pose proof (gradient1_unique _ _ _ _ _ _ _ _ H0 H1 0%nat ltac:(lia)) as U. cbv beta in U. rewrite V in U by (cbn; lia).
  unfold cr in U. cbn [M C] in U. rewrite !csumn_S, !csumn_O in U. apply (f_equal re) in U.
  unfold csumn, cadd, csub, copp, cmul, conj, c0, c1, re, im in U. cbn in U. unfold d1 in U. cbn in U. lra.
Qed.

(** The masked solver with a mask of ones (so that line 583 leaves the residual as it is), two filters, two channels and no
    signal axis: its signals have the layout of the dictionary update, and the same happens. *)
Theorem C69_masked_refuted : exists cr zc zk df z sf g c' k',
  init_vars None (Flat [8; 8; 1; 2]%nat) [16; 16; 2]%nat None 2 = Ok (cr, zc, zk) /\
  xstep_layout [8; 8; 1; 1; 2]%nat [16; 16; 2]%nat None 2 = Ok (nc z, nk z, c', k') /\
  mask_signal_axes cr = (nc sf, nk sf) /\
  nm z = 2%nat /\ nc df = 1%nat /\ nk df = 1%nat /\ nm df = 2%nat /\ nm sf = 1%nat /\
  call_grad cr zc zk df z sf = Some g /\
  is_gradient1 2 1 2 (fun c _ m => val z 0%nat c m) (fun c k => val sf c k 0%nat) (fun m => val df 0%nat 0%nat m) (fun _ => c0) /\
  ~ is_gradient1 2 1 2 (fun c _ m => val z 0%nat c m) (fun c k => val sf c k 0%nat) (fun m => val df 0%nat 0%nat m) (fun m => val g 0%nat 0%nat m).
Proof.
  pose (d1 := fun c m : nat => if (c + m =? 0)%nat then c1 else c0). pose (s := mkA 2 1 1 (fun c _ _ => d1 c 0%nat)). pose (z := mkA 1 2 2 (fun _ c m => d1 c m)). pose (df := mkA 1 1 2 (fun _ _ _ => c1)).
  pose (cr := mkCri 2 1 1 0 1 2 2 1 2 [16; 16]%nat [16; 16; 1; 1; 2]%nat [16; 16; 2; 1; 1]%nat [16; 16; 2; 1; 2]%nat).
  destruct (call_grad cr 2 1 df z s) as [g|] eqn:Eg; [|discriminate].
  exists cr, 2%nat, 1%nat, df, z, s, g, 1%nat, 2%nat. do 8 (split; [reflexivity|]). split; [exact Eg|].
  assert (H0 : is_gradient1 2 1 2 (fun c _ m => val z 0%nat c m) (fun c k => val s c k 0%nat) (fun m => val df 0%nat 0%nat m) (fun _ => c0)).
  { eapply is_gradient1_ext; [|apply fidelity1_gradient]. intros m Hm. cbv beta. destruct m as [|[|m]]; [| |lia];
    rewrite !csumn_S, !csumn_O; unfold resid; rewrite ?csumn_S, ?csumn_O; ceq; ring. }
  split; [exact H0|]. intros H1. pose proof (gradient1_unique _ _ _ _ _ _ _ _ H0 H1 0%nat ltac:(lia)) as U. cbv beta in U.
  unfold call_grad, setcoef, reshape1 in Eg. cbn [cr Cd C Cx K M z nc nk nm Nat.eqb Nat.ltb Nat.leb andb Nat.mul Nat.add obind] in Eg.
  unfold grad, innerM, innerK, zip, conj3 in Eg. cbn in Eg.
  assert (Vg : val g 0%nat 0%nat 0%nat = (1, 0)); [|rewrite Vg in U; apply (f_equal re) in U; unfold re, c0 in U; cbn in U; lra].
  match type of Eg with Some ?x = Some g => assert (Hg : g = x) by congruence end. rewrite Hg. cbn [sumK sumC sumM nc nk nm val].
  rewrite ?csumn_S, ?csumn_O. unfold at3. cbn. unfold csumn, cadd, csub, copp, cmul, conj, c0, c1, re, im, d1. cbn. f_equal; ring.
Qed.

(** ** Calls with different numbers of signals *)
(** The indexing object of the first call is kept as long as the signals have the same size. A call with one signal after
    one with [K cr]: the coefficients are repeated and the gradient is multiplied by that number. *)
Theorem C69_stale : forall cr df z sf, Cd cr = C cr -> Cx cr = 1%nat ->
  nc z = 1%nat -> nk z = 1%nat -> nm z = M cr -> nc df = Cd cr -> nk df = 1%nat -> nm df = M cr -> nc sf = C cr -> nk sf = 1%nat -> nm sf = 1%nat ->
  exists g, call_grad cr (Cx cr) (K cr) df z sf = Some g /\ nc g = Cd cr /\ nk g = 1%nat /\ nm g = M cr /\ exists t,
    is_gradient (C cr) 1 (M cr) (fun k m => val z 0%nat k m) (fun c k => val sf c k 0%nat) (fun c m => val df c 0%nat m) t /\
    forall c m, (c < C cr)%nat -> (m < M cr)%nat -> val g c 0%nat m = cscal (INR (K cr)) (t c m).
Proof.
  intros cr df z sf HC HX Z1 Z2 Z3 D1 D2 D3 S1 S2 S3.
  assert (G : ((1 <? C cr) && (Cd cr =? 1))%nat = false).
  { rewrite HC. destruct (Nat.ltb_spec 1 (C cr)); [|reflexivity]. destruct (Nat.eqb_spec (C cr) 1); [lia|reflexivity]. }
  unfold call_grad, setcoef. rewrite andb_comm in G. rewrite G. rewrite andb_comm in G. rewrite Z1, Z2, Z3, HX. unfold fits. rewrite !Nat.eqb_refl, ?orb_true_r. cbn [andb orb obind]. rewrite ?orb_true_r. cbn [andb orb obind].
  set (zf := mkA 1 (K cr) (M cr) (fun c k m => at3 z c k m)).
  destruct (grad_value cr (C cr) (K cr) (M cr) df zf sf) as (g & E & G1 & G2 & G3 & V); try reflexivity; try assumption; [congruence|right; exact S2|].
  exists g. split; [exact E|]. split; [congruence|]. split; [exact G2|]. split; [exact G3|]. eexists. split; [apply fidelity_gradient|].
  intros c m Hc Hm. cbv beta. rewrite (V c m Hc Hm), cscal_mul, csumn_S, csumn_O.
  match goal with |- csumn _ ?f = cmul _ (cadd c0 ?x) => rewrite (csumn_ext _ f (fun _ => x)) end.
  - rewrite csumn_const. ring.
  - intros k Hk. unfold zf, at3. cbn [val]. rewrite Z1, Z2, Z3, S2, !bix_1, (bix_lt _ m Hm). f_equal. unfold resid. f_equal. apply csumn_ext. intros m' Hm'. rewrite (bix_lt _ m' Hm'). reflexivity.
Qed.
(** Three signals, then one of the same size. *)
Theorem C69_stale_refuted : exists cr1 zc1 zk1 cr zc zk df z sf g,
  init_vars None (Flat [8; 8; 2]%nat) [16; 16; 3]%nat None 2 = Ok (cr1, zc1, zk1) /\
  init_vars (Some (cr1, zc1, zk1)) (Flat [8; 8; 2]%nat) [16; 16]%nat None 2 = Ok (cr, zc, zk) /\
  xstep_layout [8; 8; 1; 1; 2]%nat [16; 16]%nat None 2 = Ok (nc z, nk z, nc sf, nk sf) /\
  nm z = 2%nat /\ nc df = 1%nat /\ nk df = 1%nat /\ nm df = 2%nat /\ nm sf = 1%nat /\
  call_grad cr zc zk df z sf = Some g /\
  ~ is_gradient 1 1 2 (fun k m => val z 0%nat k m) (fun c k => val sf c k 0%nat) (fun c m => val df c 0%nat m) (fun c m => val g c 0%nat m).
Proof.
  pose (cr := mkCri 2 0 0 1 1 1 1 3 2 [16; 16]%nat [16; 16; 1; 1; 2]%nat [16; 16; 1; 3; 1]%nat [16; 16; 1; 3; 2]%nat).
  pose (s := mkA 1 1 1 (fun _ _ _ => c0)). pose (z := mkA 1 1 2 (fun _ _ m => if (m =? 0)%nat then c1 else c0)). pose (df := mkA 1 1 2 (fun _ _ _ => c1)).
  destruct (C69_stale cr df z s eq_refl eq_refl eq_refl eq_refl eq_refl eq_refl eq_refl eq_refl eq_refl eq_refl eq_refl) as (g & Eg & G1 & G2 & G3 & t & Ht & V).
  exists cr, 1%nat, 3%nat, cr, 1%nat, 3%nat, df, z, s, g. do 8 (split; [reflexivity|]). split; [exact Eg|]. intros H.
  pose proof (gradient_unique _ _ _ _ _ _ _ _ Ht H 0%nat 0%nat ltac:(cbn; lia) ltac:(cbn; lia)) as U. cbv beta in U. rewrite V in U by (cbn; lia).
  pose proof (gradient_unique _ _ _ _ _ _ _ _ Ht (fidelity_gradient _ _ _ _ _ _) 0%nat 0%nat ltac:(cbn; lia) ltac:(cbn; lia)) as W. cbv beta in W. rewrite W in U.
  unfold resid in U. unfold cr in U. cbn [M C K] in U. rewrite !csumn_S, !csumn_O in U. apply (f_equal re) in U.
  unfold cscal, cadd, csub, copp, cmul, conj, c0, c1, re, im in U. cbn in U. lra.
Qed.
(** Any other change of the number of signals is an exception. *)
Theorem C69_stale_error : forall cr df z sf, Cd cr = C cr -> nk z <> 1%nat -> nk z <> K cr -> call_grad cr (Cx cr) (K cr) df z sf = None.
Proof.
  intros cr df z sf HC H1 H2. unfold call_grad, setcoef.
  assert (G : ((Cd cr =? 1) && (1 <? C cr))%nat = false).
  { rewrite HC. destruct (Nat.ltb_spec 1 (C cr)); [|apply andb_false_r]. destruct (Nat.eqb_spec (C cr) 1); [lia|reflexivity]. }
  rewrite G. unfold fits at 2. destruct (Nat.eqb_spec (nk z) (K cr)); [contradiction|]. destruct (Nat.eqb_spec (nk z) 1); [contradiction|]. cbn [orb]. rewrite andb_false_r. reflexivity.
Qed.

(** A dictionary of a single filter can not be used at all with one signal: squeeze removes its filter axis. *)
Theorem C69_single_filter_refuted : forall s1 s2 n1 n2, (1 < s1)%nat -> (1 < s2)%nat ->
  xstep_layout [s1; s2; 1; 1; 1]%nat [n1; n2] None 2 = ValueErr.
Proof.
  intros s1 s2 n1 n2 H1 H2. unfold xstep_layout, squeeze. cbn [filter]. destruct (Nat.eqb_spec s1 1); [lia|]. destruct (Nat.eqb_spec s2 1); [lia|]. cbn [negb Nat.eqb].
  unfold csc_index. cbn. destruct s1 as [|[|s1]]; [lia..|]. reflexivity.
Qed.

(** An instance of the hypotheses of C69_layout: colour images with a colour dictionary of 4 filters, 5 images. *)
Example C69_layout_ex : exists cr, init_vars None (Flat [8; 8; 3; 4]%nat) [16; 16; 3; 5]%nat None 2 = Ok (cr, 1%nat, 5%nat) /\ C cr = 3%nat /\ Cd cr = 3%nat.
Proof. eexists. split; [reflexivity|]. split; reflexivity. Qed.
Example C69_gradient_ex : exists g, call_grad (mkCri 2 0 0 1 1 1 1 1 2 [] [] [] []) 1 1 (mkA 1 1 2 (fun _ _ _ => c1)) (mkA 1 1 2 (fun _ _ _ => c1)) (mkA 1 1 1 (fun _ _ _ => c1)) = Some g /\ val g 0%nat 0%nat 0%nat = c1.
Proof. eexists. split; [reflexivity|]. cbn [val]. ceq; ring. Qed.

Print Assumptions C51_feasible.
Print Assumptions C51_records.
Print Assumptions C51_step_sizes.
Print Assumptions C69_gradient.
Print Assumptions C69_layout.
Print Assumptions C69_shared.
Print Assumptions C69_pairs.
Print Assumptions C69_shared_refuted.
Print Assumptions C69_masked_refuted.
Print Assumptions C69_stale.
Print Assumptions C69_stale_refuted.
Print Assumptions C69_stale_error.
Print Assumptions C69_single_filter_refuted.
