(** Proofs about whole iterations of TVL2Denoise and TVL1Denoise (TdnModel). *)
Require Import List Arith ZArith Reals Bool Lra Lia FunctionalExtensionality.
Require Import Verif.RVec Verif.NdIndex Verif.NdSum Verif.SignalModel Verif.SignalProofs Verif.AdmmModel Verif.AdmmSpec Verif.AdmmProps Verif.AdmmProofs Verif.AdmmConv Verif.Compact.
Require Import Verif.ProxModel Verif.StepsModel Verif.StepsSpec Verif.StepsProofs Verif.LimitProofs Verif.SplitConv Verif.JacProofs.
Require Import Verif.TvdModel Verif.TvdSteps Verif.TdnModel Verif.TdnSpec.
Import ListNotations.
Local Open Scope R_scope.

Lemma sum_ravel s : forall f, (0 < prod s)%nat -> sumn (prod s) (fun q => f (unravel s q)) = ndsum s f.
Proof.
  induction s as [|n s IH]; intros f HP; [cbn; ring|].
  cbn [prod] in *. assert (H1 : (0 < prod s)%nat) by nia.
  rewrite sumn_flat by exact H1. cbn [ndsum]. apply sumn_ext. intros i Hi. rewrite <- (IH (fun r => f (i :: r)) H1).
  apply sumn_ext. intros q Hq. cbn [unravel]. f_equal. f_equal; [|f_equal].
  - rewrite Nat.div_add_l by lia. rewrite Nat.div_small by exact Hq. lia.
  - rewrite Nat.add_comm, Nat.mod_add by lia. apply Nat.mod_small. exact Hq.
Qed.
Lemma sum_ravel' s (g : nat -> R) : (0 < prod s)%nat -> sumn (prod s) g = ndsum s (fun idx => g (ravel s idx)).
Proof. intros HP. rewrite <- (sum_ravel s (fun idx => g (ravel s idx)) HP). apply sumn_ext. intros q Hq. rewrite ravel_unravel by exact Hq. reflexivity. Qed.
Lemma lsum_seq (f : nat -> R) K a : lsum f (seq a K) = sumn K (fun j => f (a + j)%nat).
Proof.
  revert a. induction K as [|K IH]; intros a; [reflexivity|]. cbn [seq lsum]. rewrite IH, sumn_first. f_equal; [f_equal; lia|]. apply sumn_ext. intros j _. f_equal. lia.
Qed.
Lemma lsum_in {A} (f g : A -> R) l : (forall a, In a l -> f a = g a) -> lsum f l = lsum g l.
Proof. induction l as [|a l IH]; intros H; cbn; [reflexivity|]. rewrite IH, (H a (or_introl eq_refl)) by (intros; apply H; right; assumption). reflexivity. Qed.

Definition gT (s : list nat) (ax : nat) (y : list nat -> R) (idx : list nat) : R :=
  (if Nat.eqb (coord ax idx) 0 then 0 else y (setc ax (coord ax idx - 1) idx)) - (if Nat.eqb (coord ax idx) (nth ax s O - 1) then 0 else y idx).
Lemma AT_val s nc axes y : valid_axes s axes -> (forall ax, In ax axes -> (ax < nc)%nat) ->
  exists h, tv_AT_sum s nc axes y = Some h /\ forall idx, inb s idx -> h idx = lsum (fun ax => gT s ax (y ax) idx) axes.
Proof.
  intros Hv Hc. induction axes as [|ax axes IH]; cbn [tv_AT_sum lsum].
  - eexists. split; [reflexivity|]. reflexivity.
  - destruct IH as (h & Eh & Hh); [intros a Ha; apply Hv; right; exact Ha|intros a Ha; apply Hc; right; exact Ha|].
    destruct (Hv ax (or_introl eq_refl)) as [V1 V2].
    destruct (gradT_inb s ax (y ax) V2 V1) as (g & Eg & Hg).
    destruct (Nat.ltb_spec ax nc) as [L|L]; [|specialize (Hc ax (or_introl eq_refl)); lia].
    rewrite Eg, Eh. eexists. split; [reflexivity|]. intros idx Hi. cbv beta. rewrite (Hg idx Hi), (Hh idx Hi). reflexivity.
Qed.
Lemma gT_ext s ax y z idx : (ax < length s)%nat -> inb s idx -> (forall i, inb s i -> y i = z i) -> gT s ax y idx = gT s ax z idx.
Proof.
  intros Hax Hi H. unfold gT. rewrite (H idx Hi). destruct (Nat.eqb_spec (coord ax idx) 0) as [E|E]; [reflexivity|].
  rewrite H; [reflexivity|]. apply inb_setc; [exact Hi| |exact Hax]. pose proof (inb_coord _ _ _ Hi Hax). lia.
Qed.
Lemma gT_grad s ax x idx : (ax < length s)%nat -> (2 <= nth ax s O)%nat -> inb s idx -> gT s ax (grad s (Z.of_nat ax) x) idx = cnt s idx ax * x idx - nbr s x idx ax.
Proof.
  intros Hax Hn Hi. destruct (laplace_axis s ax x Hax Hn) as (g & Eg & Hg). destruct (gradT_inb s ax (grad s (Z.of_nat ax) x) Hn Hax) as (g' & Eg' & Hg').
  rewrite Eg in Eg'. injection Eg' as <-. rewrite <- (Hg idx Hi), (Hg' idx Hi). reflexivity.
Qed.
Lemma gT_lin s ax a y b z idx : gT s ax (fun i => a * y i + b * z i) idx = a * gT s ax y idx + b * gT s ax z idx.
Proof. unfold gT. destruct (Nat.eqb _ _), (Nat.eqb _ _); ring. Qed.
Lemma nbr_ext s ax y z idx : (ax < length s)%nat -> inb s idx -> (forall i, inb s i -> y i = z i) -> nbr s y idx ax = nbr s z idx ax.
Proof.
  intros Hax Hi H. pose proof (inb_coord _ _ _ Hi Hax) as Hc. unfold nbr. f_equal.
  - destruct (Nat.eqb_spec (coord ax idx) 0) as [E|E]; [reflexivity|]. apply H. apply inb_setc; [exact Hi|lia|exact Hax].
  - destruct (Nat.eqb_spec (coord ax idx) (nth ax s O - 1)) as [E|E]; [reflexivity|]. apply H. apply inb_setc; [exact Hi|lia|exact Hax].
Qed.
Lemma nbr_lin s ax a y b z idx : nbr s (fun i => a * y i + b * z i) idx ax = a * nbr s y idx ax + b * nbr s z idx ax.
Proof. unfold nbr. destruct (Nat.eqb _ _), (Nat.eqb _ _); ring. Qed.
Lemma grad_lin s ax a x b y idx : grad s (Z.of_nat ax) (fun i => a * x i + b * y i) idx = a * grad s (Z.of_nat ax) x idx + b * grad s (Z.of_nat ax) y idx.
Proof. unfold grad, roll_m1. destruct (Nat.eqb _ _); ring. Qed.
Lemma grad_ext s ax x y idx : (ax < length s)%nat -> inb s idx -> (forall i, inb s i -> x i = y i) -> grad s (Z.of_nat ax) x idx = grad s (Z.of_nat ax) y idx.
Proof.
  intros Hax Hi H. pose proof (inb_coord _ _ _ Hi Hax) as Hc. rewrite !grad_val by exact Hc. destruct (Nat.eqb_spec (coord ax idx) (nth ax s O - 1)) as [E|E]; [reflexivity|].
  rewrite (H idx Hi), (H (setc ax (coord ax idx + 1) idx)); [reflexivity|]. apply inb_setc; [exact Hi|lia|exact Hax].
Qed.
(** The signless Laplacian is positive semidefinite: changing the sign of every other sample makes it a Laplacian. *)
Definition flip (ax : nat) (x : list nat -> R) : list nat -> R := fun idx => (-1) ^ coord ax idx * x idx.
Lemma m1_sq k : (-1) ^ k * (-1) ^ k = 1.
Proof. rewrite <- Rpow_mult_distr. replace (-1 * -1) with 1 by ring. apply pow1. Qed.
Lemma nbr_flip s ax x idx : (ax < length s)%nat -> inb s idx -> nbr s (flip ax x) idx ax = - ((-1) ^ coord ax idx) * nbr s x idx ax.
Proof.
  intros Hax Hi. assert (L : (ax < length idx)%nat) by (rewrite (inb_length _ _ Hi); exact Hax).
  unfold nbr, flip. rewrite !coord_setc by exact L. destruct (Nat.eqb_spec (coord ax idx) 0) as [E|E].
  - destruct (Nat.eqb_spec (coord ax idx) (nth ax s O - 1)); [ring|]. rewrite pow_add. ring.
  - assert (E1 : (-1) ^ (coord ax idx - 1) = - (-1) ^ coord ax idx).
    { replace (coord ax idx) with (Datatypes.S (coord ax idx - 1)) at 2 by lia. cbn [pow]. ring. }
    rewrite E1. destruct (Nat.eqb_spec (coord ax idx) (nth ax s O - 1)); [ring|]. rewrite pow_add. ring.
Qed.
Lemma signless s ax x : (ax < length s)%nat -> (2 <= nth ax s O)%nat -> 0 <= ndsum s (fun idx => (cnt s idx ax * x idx + nbr s x idx ax) * x idx).
Proof.
  intros Hax Hn. set (z := flip ax x).
  rewrite (ndsum_ext s _ (fun idx => z idx * gT s ax (grad s (Z.of_nat ax) z) idx)).
  - destruct (adjoint_ok s ax z (grad s (Z.of_nat ax) z) Hax Hn) as (g & Eg & Hg).
    destruct (gradT_inb s ax (grad s (Z.of_nat ax) z) Hn Hax) as (g' & Eg' & Hg'). rewrite Eg in Eg'. injection Eg' as <-.
    rewrite (ndsum_ext s _ (fun idx => z idx * g idx)) by (intros idx Hi; rewrite (Hg' idx Hi); reflexivity).
    unfold ndot in Hg. rewrite <- Hg. apply ndsum_nonneg. intros idx _. apply Rle_0_sqr.
  - intros idx Hi. rewrite gT_grad by assumption. unfold z. rewrite nbr_flip by assumption. unfold flip. pose proof (m1_sq (coord ax idx)) as M.
    set (e := (-1) ^ coord ax idx) in *.
    replace (e * x idx * (cnt s idx ax * (e * x idx) - - e * nbr s x idx ax)) with (e * e * ((cnt s idx ax * x idx + nbr s x idx ax) * x idx)) by ring. rewrite M. ring.
Qed.

Section ops.
Context (s : list nat) (K C : nat).
Let axes := seq 0 K.
Let P := prod s.
Let n := (C * P)%nat.
Context (HP : (0 < P)%nat) (HC : (0 < C)%nat) (Hv : valid_axes s axes).

Lemma dvP b q : (q < P)%nat -> ((b * P + q) / P)%nat = b.
Proof. intros H. rewrite Nat.div_add_l by lia. rewrite Nat.div_small by exact H. lia. Qed.
Lemma mdP b q : (q < P)%nat -> ((b * P + q) mod P)%nat = q.
Proof. intros H. rewrite Nat.add_comm, Nat.mod_add by lia. apply Nat.mod_small. exact H. Qed.
Lemma dvC b q : (q < C)%nat -> ((b * C + q) / C)%nat = b.
Proof. intros H. rewrite Nat.div_add_l by lia. rewrite Nat.div_small by exact H. lia. Qed.
Lemma mdC b q : (q < C)%nat -> ((b * C + q) mod C)%nat = q.
Proof. intros H. rewrite Nat.add_comm, Nat.mod_add by lia. apply Nat.mod_small. exact H. Qed.
Lemma unr_inb i : inb s (unravel s (i mod P)).
Proof. apply unravel_inb. apply Nat.mod_upper_bound. lia. Qed.
Lemma chan_flat f b idx : inb s idx -> chan s (flat s f) b idx = f b idx.
Proof. intros Hi. unfold chan, flat. pose proof (ravel_lt s idx Hi) as L. change (prod s) with P in L |- *. rewrite dvP, mdP by exact L. rewrite unravel_ravel by exact Hi. reflexivity. Qed.
Lemma chan_at x i : chan s x (i / P) (unravel s (i mod P)) = x i.
Proof.
  unfold chan. rewrite ravel_unravel by (apply Nat.mod_upper_bound; unfold P in HP; lia). change (prod s) with P. f_equal. rewrite Nat.mul_comm. symmetry. apply Nat.div_mod. lia.
Qed.
Lemma chan_ext B x y : (forall i, (i < B * P)%nat -> x i = y i) -> forall b idx, (b < B)%nat -> inb s idx -> chan s x b idx = chan s y b idx.
Proof. intros H b idx Hb Hi. unfold chan. apply H. pose proof (ravel_lt s idx Hi) as L. change (prod s) with P in L |- *. nia. Qed.
Lemma chan_lt B i : (i < B * P)%nat -> (i / P < B)%nat.
Proof. intros H. apply Nat.div_lt_upper_bound; [lia|]. rewrite Nat.mul_comm. exact H. Qed.
Lemma dot_blocks B x y : dot (B * P) x y = sumn B (fun b => ndot s (chan s x b) (chan s y b)).
Proof. unfold dot. rewrite sumn_flat by exact HP. apply sumn_ext. intros b _. unfold P. rewrite sum_ravel' by exact HP. reflexivity. Qed.
Lemma in_axes ax : In ax axes -> (ax < K)%nat.
Proof. intros H. apply in_seq in H. lia. Qed.
Lemma ax_ok ax : (ax < K)%nat -> (ax < length s)%nat /\ (2 <= nth ax s O)%nat.
Proof. intros H. apply Hv. apply in_seq. lia. Qed.
Lemma len_axes : length axes = K. Proof. apply seq_length. Qed.
Lemma nth_axes j : (j < K)%nat -> nth j axes O = j. Proof. intros H. unfold axes. rewrite seq_nth by exact H. lia. Qed.

(** cnst_A and cnst_AT of TVL2Denoise. *)
Lemma A2_val x j c idx : (j < K)%nat -> (c < C)%nat -> inb s idx -> chan s (td2_A s axes C x) (j * C + c) idx = grad s (Z.of_nat j) (chan s x c) idx.
Proof. intros Hj Hc Hi. unfold td2_A. rewrite chan_flat by exact Hi. rewrite dvC, mdC by exact Hc. unfold tv_A. rewrite nth_axes by exact Hj. reflexivity. Qed.
Lemma AT2_val y c idx : (c < C)%nat -> inb s idx -> chan s (td2_AT s axes C y) c idx = sumn K (fun ax => gT s ax (chan s y (ax * C + c)) idx).
Proof.
  intros Hc Hi. unfold td2_AT. rewrite chan_flat by exact Hi. unfold tv_AT.
  destruct (AT_val s (length axes) axes (fun j => chan s y (j * C + c)) Hv) as (h & E & Hh); [rewrite len_axes; exact in_axes|].
  rewrite E. cbn [or_zero]. rewrite (Hh idx Hi). unfold axes. rewrite lsum_seq. reflexivity.
Qed.
Lemma A1_val x j c idx : (j < K)%nat -> (c < C)%nat -> inb s idx -> chan s (td1_A s axes C x) (j * C + c) idx = grad s (Z.of_nat j) (chan s x c) idx.
Proof.
  intros Hj Hc Hi. unfold td1_A. rewrite chan_flat by exact Hi. rewrite dvC, mdC by exact Hc. unfold tv1_A. rewrite len_axes. apply Nat.ltb_lt in Hj as Hj'. rewrite Hj', nth_axes by exact Hj. reflexivity.
Qed.
Lemma A1_last x c idx : (c < C)%nat -> inb s idx -> chan s (td1_A s axes C x) (K * C + c) idx = chan s x c idx.
Proof. intros Hc Hi. unfold td1_A. rewrite chan_flat by exact Hi. rewrite dvC, mdC by exact Hc. unfold tv1_A. rewrite len_axes, Nat.ltb_irrefl. reflexivity. Qed.
Lemma AT1_val y c idx : (c < C)%nat -> inb s idx -> chan s (td1_AT s axes C y) c idx = sumn K (fun ax => gT s ax (chan s y (ax * C + c)) idx) + chan s y (K * C + c) idx.
Proof.
  intros Hc Hi. unfold td1_AT. rewrite chan_flat by exact Hi. unfold tv1_AT.
  destruct (AT_val s (length axes + 1) axes (fun j => chan s y (j * C + c)) Hv) as (h & E & Hh); [intros ax Ha; rewrite len_axes; pose proof (in_axes ax Ha); lia|].
  rewrite E. cbn [or_zero]. rewrite (Hh idx Hi), len_axes. unfold axes. rewrite lsum_seq. reflexivity.
Qed.
Lemma gT_adj ax x y : (ax < K)%nat -> ndot s (grad s (Z.of_nat ax) x) y = ndot s x (gT s ax y).
Proof.
  intros Ha. destruct (ax_ok ax Ha) as [V1 V2]. destruct (adjoint_ok s ax x y V1 V2) as (g & Eg & Hg).
  destruct (gradT_inb s ax y V2 V1) as (g' & Eg' & Hg'). rewrite Eg in Eg'. injection Eg' as <-.
  rewrite Hg. apply ndsum_ext. intros idx Hi. rewrite (Hg' idx Hi). reflexivity.
Qed.
Lemma grad_part x y : sumn (K * C) (fun b => ndot s (chan s (td2_A s axes C x) b) (chan s y b)) = sumn C (fun c => ndot s (chan s x c) (fun idx => sumn K (fun ax => gT s ax (chan s y (ax * C + c)) idx))).
Proof.
  rewrite sumn_flat by exact HC. rewrite sumn_swap. apply sumn_ext. intros c Hc. unfold ndot.
  rewrite (ndsum_ext s (fun idx => chan s x c idx * _) (fun idx => sumn K (fun ax => chan s x c idx * gT s ax (chan s y (ax * C + c)) idx))) by (intros; rewrite sumn_scal; reflexivity).
  rewrite ndsum_sumn. apply sumn_ext. intros j Hj. refine (eq_trans _ (gT_adj j _ _ Hj)). unfold ndot. apply ndsum_ext. intros idx Hi. rewrite A2_val by assumption. reflexivity.
Qed.
Lemma A12 x b idx : (b < K * C)%nat -> inb s idx -> chan s (td1_A s axes C x) b idx = chan s (td2_A s axes C x) b idx.
Proof.
  intros Hb Hi. assert (E : b = (b / C * C + b mod C)%nat) by (rewrite Nat.mul_comm; apply Nat.div_mod; lia). rewrite E.
  assert (b / C < K)%nat by (apply Nat.div_lt_upper_bound; [lia|nia]). assert (b mod C < C)%nat by (apply Nat.mod_upper_bound; lia).
  rewrite A1_val, A2_val by assumption. reflexivity.
Qed.
Lemma adj2 x y : dot (K * C * P) (td2_A s axes C x) y = dot n x (td2_AT s axes C y).
Proof.
  unfold n. rewrite !dot_blocks. rewrite grad_part. apply sumn_ext. intros c Hc. unfold ndot. apply ndsum_ext. intros idx Hi. rewrite AT2_val by assumption. reflexivity.
Qed.
Lemma adj1 x y : dot (K * C * P + n) (td1_A s axes C x) y = dot n x (td1_AT s axes C y).
Proof.
  replace (K * C * P + n)%nat with ((K * C + C) * P)%nat by (unfold n; ring). unfold n. rewrite !dot_blocks. rewrite sumn_split.
  rewrite (sumn_ext (K * C) _ (fun b => ndot s (chan s (td2_A s axes C x) b) (chan s y b))) by (intros b Hb; unfold ndot; apply ndsum_ext; intros idx Hi; rewrite A12 by assumption; reflexivity).
  rewrite grad_part, <- sumn_plus. apply sumn_ext. intros c Hc. unfold ndot. rewrite <- ndsum_plus. apply ndsum_ext. intros idx Hi. rewrite AT1_val, A1_last by assumption. ring.
Qed.
Lemma A2_lin : linear_map (td2_A s axes C).
Proof. intros a x b y i. unfold td2_A, flat, tv_A, grad, roll_m1, chan. destruct (Nat.eqb _ _); ring. Qed.
Lemma A1_lin : linear_map (td1_A s axes C).
Proof. intros a x b y i. unfold td1_A, flat, tv1_A, grad, roll_m1, chan. destruct (Nat.ltb _ _); [destruct (Nat.eqb _ _); ring|ring]. Qed.
Lemma at_chan (x y : vec) i : chan s x (i / P) (unravel s (i mod P)) = chan s y (i / P) (unravel s (i mod P)) -> x i = y i.
Proof. rewrite !chan_at. trivial. Qed.
Lemma A2_loc x y : (forall i, (i < n)%nat -> x i = y i) -> forall i, (i < K * C * P)%nat -> td2_A s axes C x i = td2_A s axes C y i.
Proof.
  intros H i Hi. apply at_chan. pose proof (chan_lt (K * C) i Hi) as Hb. pose proof (unr_inb i) as Hu.
  set (b := (i / P)%nat) in *. assert (E : b = (b / C * C + b mod C)%nat) by (rewrite Nat.mul_comm; apply Nat.div_mod; lia). rewrite E.
  assert (Hj : (b / C < K)%nat) by (apply Nat.div_lt_upper_bound; [lia|nia]). assert (Hc : (b mod C < C)%nat) by (apply Nat.mod_upper_bound; lia).
  rewrite !A2_val by assumption. apply grad_ext; [apply (ax_ok _ Hj)|exact Hu|]. intros idx Hx. apply (chan_ext C); assumption.
Qed.
Lemma A1_head x i : (i < K * C * P)%nat -> td1_A s axes C x i = td2_A s axes C x i.
Proof. intros Hi. apply at_chan. apply A12; [apply chan_lt; exact Hi|apply unr_inb]. Qed.
Lemma A1_tail x i : (i < n)%nat -> td1_A s axes C x (K * C * P + i) = x i.
Proof.
  intros Hi. pose proof (chan_lt C i Hi) as Hc. pose proof (unr_inb i) as Hu.
  rewrite <- (chan_at x i). rewrite <- (A1_last x (i / P) (unravel s (i mod P)) Hc Hu). unfold chan. f_equal.
  rewrite ravel_unravel by (apply Nat.mod_upper_bound; unfold P in HP; lia). change (prod s) with P. rewrite Nat.mul_add_distr_r.
  rewrite <- Nat.add_assoc. f_equal. rewrite (Nat.mul_comm (i / P)). apply Nat.div_mod. lia.
Qed.
Lemma A1_loc x y : (forall i, (i < n)%nat -> x i = y i) -> forall i, (i < K * C * P + n)%nat -> td1_A s axes C x i = td1_A s axes C y i.
Proof.
  intros H i Hi. destruct (Nat.lt_ge_cases i (K * C * P)) as [L|L].
  - rewrite !A1_head by exact L. apply A2_loc; assumption.
  - replace i with (K * C * P + (i - K * C * P))%nat by lia. rewrite !A1_tail by lia. apply H. lia.
Qed.

(** The splitting of the Laplacian used by GaussSeidelStep. *)
Definition ctr (i : nat) : R := lcw s axes (unravel s (i mod P)).
Definition nbs (x : vec) : vec := fun i => sumn K (fun ax => nbr s (chan s x (i / P)) (unravel s (i mod P)) ax).
Lemma ctr_cnt i : ctr i = sumn K (fun ax => cnt s (unravel s (i mod P)) ax).
Proof. unfold ctr. rewrite lcw_cnt by (assumption || apply unr_inb). unfold axes. rewrite lsum_seq. reflexivity. Qed.
Lemma ctr_nonneg i : 0 <= ctr i.
Proof. rewrite ctr_cnt. apply sumn_nonneg. intros ax _. unfold cnt. destruct (Nat.eqb _ _), (Nat.eqb _ _); lra. Qed.
Lemma nbs_lin : linear_map nbs.
Proof.
  intros a x b y i. unfold nbs. rewrite <- !sumn_scal, <- sumn_plus. apply sumn_ext. intros ax _.
  exact (nbr_lin s ax a (chan s x (i / P)) b (chan s y (i / P)) (unravel s (i mod P))).
Qed.
Lemma nbs_loc x y : (forall i, (i < n)%nat -> x i = y i) -> forall i, (i < n)%nat -> nbs x i = nbs y i.
Proof.
  intros H i Hi. unfold nbs. apply sumn_ext. intros ax Ha. apply nbr_ext; [apply (ax_ok _ Ha)|apply unr_inb|]. intros idx Hx. apply (chan_ext C); [exact H|apply chan_lt; exact Hi|exact Hx].
Qed.
Lemma lap2 x i : (i < n)%nat -> td2_AT s axes C (td2_A s axes C x) i = ctr i * x i - nbs x i.
Proof.
  intros Hi. pose proof (chan_lt C i Hi) as Hc. pose proof (unr_inb i) as Hu. rewrite <- (chan_at (td2_AT s axes C _) i).
  rewrite AT2_val by assumption. rewrite ctr_cnt. unfold nbs. rewrite Rmult_comm, <- sumn_scal, <- sumn_minus. apply sumn_ext. intros ax Ha.
  destruct (ax_ok ax Ha) as [V1 V2]. rewrite (gT_ext s ax _ (grad s (Z.of_nat ax) (chan s x (i / P))) _ V1 Hu) by (intros; apply A2_val; assumption).
  rewrite gT_grad by assumption. rewrite chan_at. ring.
Qed.
Lemma lap1 x i : (i < n)%nat -> td1_AT s axes C (td1_A s axes C x) i = (1 + ctr i) * x i - nbs x i.
Proof.
  intros Hi. pose proof (chan_lt C i Hi) as Hc. pose proof (unr_inb i) as Hu. rewrite <- (chan_at (td1_AT s axes C _) i).
  rewrite AT1_val by assumption. rewrite A1_last by assumption. rewrite chan_at.
  replace ((1 + ctr i) * x i - nbs x i) with ((ctr i * x i - nbs x i) + x i) by ring. f_equal. rewrite <- lap2 by exact Hi. rewrite <- (chan_at (td2_AT s axes C _) i).
  rewrite AT2_val by assumption. apply sumn_ext. intros ax Ha. apply gT_ext; [apply (ax_ok ax Ha)|exact Hu|]. intros idx Hx. apply A12; [nia|exact Hx].
Qed.
Lemma AT1_split y i : (i < n)%nat -> td1_AT s axes C y i = td1_AT s axes C (fun r => if Nat.ltb r (K * C * P) then y r else 0) i + y (K * C * P + i)%nat.
Proof.
  intros Hi. pose proof (chan_lt C i Hi) as Hc. pose proof (unr_inb i) as Hu. rewrite <- (chan_at (td1_AT s axes C y) i), <- (chan_at (td1_AT s axes C (fun r => _)) i).
  rewrite !AT1_val by assumption.
  assert (E : chan s y (K * C + i / P) (unravel s (i mod P)) = y (K * C * P + i)%nat).
  { unfold chan. f_equal. rewrite ravel_unravel by (apply Nat.mod_upper_bound; unfold P in HP; lia). change (prod s) with P. rewrite Nat.mul_add_distr_r, <- Nat.add_assoc. f_equal. rewrite (Nat.mul_comm (i / P)). symmetry. apply Nat.div_mod. lia. }
  rewrite E.
  assert (E0 : chan s (fun r => if Nat.ltb r (K * C * P) then y r else 0) (K * C + i / P) (unravel s (i mod P)) = 0).
  { unfold chan. change (prod s) with P. destruct (Nat.ltb_spec ((K * C + i / P) * P + ravel s (unravel s (i mod P))) (K * C * P)); [nia|reflexivity]. }
  rewrite E0, Rplus_0_r. f_equal. apply sumn_ext. intros ax Ha. apply gT_ext; [apply (ax_ok ax Ha)|exact Hu|]. intros idx Hx. unfold chan.
  pose proof (ravel_lt s idx Hx) as L. change (prod s) with P in L |- *. assert ((ax * C + i / P) * P + ravel s idx < K * C * P)%nat as L2 by (assert (ax * C + i / P < K * C)%nat by nia; nia).
  apply Nat.ltb_lt in L2. rewrite L2. reflexivity.
Qed.
Lemma AT_local m (B : vec -> vec) (BT : vec -> vec) : (forall x v, dot m (B x) v = dot n x (BT v)) -> forall u v, (forall i, (i < m)%nat -> u i = v i) -> forall i, (i < n)%nat -> BT u i = BT v i.
Proof.
  intros Ha u v E i Hi. set (e := fun j => if Nat.eqb j i then 1 else 0).
  assert (D : forall z, dot n e z = z i).
  { intros z. unfold dot, e. rewrite (sumn_ext n _ (fun j => if Nat.eqb j i then z j else 0)) by (intros j _; destruct (Nat.eqb j i); ring). rewrite sumn_delta by exact Hi. reflexivity. }
  rewrite <- (D (BT u)), <- (D (BT v)), <- !Ha. apply sumn_ext. intros j Hj. rewrite E by exact Hj. reflexivity.
Qed.
Lemma signless_all x : 0 <= sumn n (fun i => ctr i * x i * x i) + dot n (nbs x) x.
Proof.
  unfold dot. rewrite <- sumn_plus. rewrite (sumn_ext n _ (fun i => sumn K (fun ax => (cnt s (unravel s (i mod P)) ax * chan s x (i / P) (unravel s (i mod P)) + nbr s (chan s x (i / P)) (unravel s (i mod P)) ax) * chan s x (i / P) (unravel s (i mod P))))).
  2: { intros i _. rewrite ctr_cnt. unfold nbs. rewrite !chan_at. rewrite sumn_scal_r, sumn_plus, sumn_scal_r.
    refine (eq_trans (y := (sumn K (cnt s (unravel s (i mod P))) * x i * x i + sumn K (nbr s (chan s x (i / P)) (unravel s (i mod P))) * x i)) eq_refl _). ring. }
  unfold n. rewrite sumn_flat by exact HP. apply sumn_nonneg. intros c _.
  set (G := fun idx => sumn K (fun ax => (cnt s idx ax * chan s x c idx + nbr s (chan s x c) idx ax) * chan s x c idx)).
  rewrite (sumn_ext P _ (fun q => G (unravel s q))) by (intros q Hq; rewrite dvP, mdP by exact Hq; reflexivity).
  refine (Rle_trans _ _ _ _ (Req_le _ _ (eq_sym (sum_ravel s G HP)))). unfold G. rewrite ndsum_sumn. apply sumn_nonneg. intros ax Ha. destruct (ax_ok ax Ha). apply signless; assumption.
Qed.
End ops.

(** ** The inner loop *)
Lemma iter_fix (N : nat) (step : vec -> vec) : (forall x y, (forall i, (i < N)%nat -> x i = y i) -> forall i, (i < N)%nat -> step x i = step y i) ->
  forall X, (forall i, (i < N)%nat -> step X i = X i) -> forall r i, (i < N)%nat -> Nat.iter r step X i = X i.
Proof. intros L X F r. induction r as [|r IH]; intros i Hi; [reflexivity|]. change (Nat.iter (Datatypes.S r) step X) with (step (Nat.iter r step X)). rewrite (L _ X IH i Hi). apply F. exact Hi. Qed.
Lemma iter_shift {T} (f : T -> T) r x : Nat.iter r f (f x) = f (Nat.iter r f x).
Proof. induction r as [|r IH]; [reflexivity|]. change (Nat.iter (Datatypes.S r) f (f x)) with (f (Nat.iter r f (f x))). rewrite IH. reflexivity. Qed.
(** With GSTol = 0 (or less) the loop amounts to MaxGSIter sweeps: it stops early only at a fixed point. *)
Lemma gs_loop_sweeps (N : nat) (step : vec -> vec) (rr : vec -> R) tol : tol <= 0 ->
  (forall x y, (forall i, (i < N)%nat -> x i = y i) -> forall i, (i < N)%nat -> step x i = step y i) ->
  (forall X, ~ 0 < rr X -> forall i, (i < N)%nat -> step X i = X i) ->
  forall r b X i, (i < N)%nat -> gs_loop step rr tol r b X i = Nat.iter r step X i.
Proof.
  intros Ht L F r. induction r as [|r IH]; intros b X i Hi; [reflexivity|]. cbn [gs_loop].
  change (Nat.iter (Datatypes.S r) step X) with (step (Nat.iter r step X)). rewrite <- iter_shift. destruct (b || _)%bool eqn:E; [apply IH; exact Hi|].
  apply orb_false_iff in E. destruct E as [_ E]. destruct (Rlt_dec tol (rr X)) as [|G]; [discriminate|].
  assert (FX : forall i, (i < N)%nat -> step X i = X i) by (apply F; lra).
  rewrite iter_shift. symmetry. apply (iter_fix N step L X FX (Datatypes.S r) i Hi).
Qed.
Lemma rrs_zero N ax b : ~ 0 < rrs N ax b -> forall i, (i < N)%nat -> ax i = b i.
Proof.
  unfold rrs. set (m := Rmax (nrm N ax) (nrm N b)). assert (M1 : nrm N ax <= m) by apply Rmax_l. assert (M2 : nrm N b <= m) by apply Rmax_r.
  intros H i Hi. destruct (Req_EM_T m 0) as [E|E].
  - pose proof (abs_le_nrm N ax i Hi) as A1. pose proof (abs_le_nrm N b i Hi) as A2. rewrite E in M1, M2.
    assert (Z : forall t, Rabs t <= 0 -> t = 0) by (intros t Q; pose proof (Rle_abs t); pose proof (Rle_abs (- t)) as W; rewrite Rabs_Ropp in W; lra).
    rewrite (Z (ax i)), (Z (b i)) by lra. reflexivity.
  - pose proof (nrm_nonneg N ax) as P0. assert (Pm : 0 < m) by lra. set (d := nrm N (fun i => ax i - b i)) in *. pose proof (nrm_nonneg N (fun i => ax i - b i)) as Pd. fold d in Pd.
    assert (D0 : d = 0). { destruct (Rle_lt_or_eq_dec 0 d Pd) as [Q|Q]; [|lra]. exfalso. apply H. apply Rmult_lt_0_compat; [exact Q|apply Rinv_0_lt_compat; exact Pm]. }
    pose proof (abs_le_nrm N (fun i => ax i - b i) i Hi) as A1. cbv beta in A1. fold d in A1. rewrite D0 in A1. pose proof (Rle_abs (ax i - b i)). pose proof (Rle_abs (- (ax i - b i))) as W. rewrite Rabs_Ropp in W. lra.
Qed.
Lemma iter_cong (N : nat) (f g : vec -> vec) : (forall x y, (forall i, (i < N)%nat -> x i = y i) -> forall i, (i < N)%nat -> f x i = g y i) ->
  forall r X i, (i < N)%nat -> Nat.iter r f X i = Nat.iter r g X i.
Proof. intros H r. induction r as [|r IH]; intros X i Hi; [reflexivity|]. apply (H (Nat.iter r f X) (Nat.iter r g X)); [intros; apply IH; assumption|exact Hi]. Qed.

Section steps.
Context (s : list nat) (K C : nat) (lam rho rlx : R) (S wd w : vec).
Let axes := seq 0 K.
Let P := prod s.
Let n := (C * P)%nat.
Let m2 := (K * C * P)%nat.
Context (HP : (0 < P)%nat) (HC : (0 < C)%nat) (Hv : valid_axes s axes) (Hrho : 0 < rho).

Lemma gs_val S0 X AY r W2 i : gs_vec s axes S0 X AY r W2 i = (r * (nbs s K X i + AY i) + W2 i * S0 i) / (W2 i + r * ctr s K i).
Proof.
  unfold gs_vec, flat. unfold gs_step. rewrite !(chan_at s C HP HC). unfold axes. rewrite lsum_seq. reflexivity.
Qed.

(** TVL2Denoise. *)
Definition H2 (x : vec) : vec := fun i => if Nat.ltb i n then wd i * x i else 0.
Definition HT2 (v : vec) : vec := fun i => wd i * v i.
Definition s2 : vec := fun i => wd i * S i.
Definition M2 (i : nat) : R := wd i * wd i + rho * ctr s K i.
Definition N2 (x : vec) : vec := fun i => rho * nbs s K x i.
Context (Hwd : forall i, (i < n)%nat -> wd i <> 0).
Lemma wd2 i : (i < n)%nat -> 0 < wd i * wd i.
Proof. intros Hi. specialize (Hwd i Hi). assert (0 <> wd i * wd i) by (intros E; apply Hwd; destruct (Rmult_integral _ _ (eq_sym E)); assumption). pose proof (Rle_0_sqr (wd i)) as Q. unfold Rsqr in Q. lra. Qed.
Lemma M2_pos i : (i < n)%nat -> 0 < M2 i.
Proof. intros Hi. unfold M2. pose proof (wd2 i Hi). pose proof (ctr_nonneg s K C HP HC Hv i). assert (0 <= rho * ctr s K i) by (apply Rmult_le_pos; lra). lra. Qed.
Lemma AT2_loc u v : (forall i, (i < m2)%nat -> u i = v i) -> forall i, (i < n)%nat -> td2_AT s axes C u i = td2_AT s axes C v i.
Proof. exact (AT_local s C m2 _ _ (adj2 s K C HP HC Hv) u v). Qed.
Lemma step2_jac AY b X Z i : (forall j, (j < n)%nat -> b j = wd j * wd j * S j + rho * AY j) -> (forall j, (j < n)%nat -> X j = Z j) -> (i < n)%nat ->
  gs_vec s axes S X AY rho (fun i => wd i * wd i) i = jac M2 N2 b Z i.
Proof. intros Hb HX Hi. rewrite gs_val. unfold jac, N2, M2. rewrite (Hb i Hi), (nbs_loc s K C HP HC Hv X Z HX i Hi). f_equal. ring. Qed.
Lemma xstep2 r tol X Y U i : tol <= 0 -> (i < n)%nat ->
  td2_xstep s axes C r tol rho S wd X Y U i = sweeps M2 N2 r (rhs HT2 s2 (td2_AT s axes C) (fun _ => 0) rho Y U) X i.
Proof.
  intros Ht Hi. unfold td2_xstep. set (AY := td2_AT s axes C (fun i0 => Y i0 - U i0)).
  assert (Eb : forall j, (j < n)%nat -> rhs HT2 s2 (td2_AT s axes C) (fun _ => 0) rho Y U j = wd j * wd j * S j + rho * AY j).
  { intros j Hj. unfold rhs, HT2, s2, AY. f_equal; [ring|]. f_equal. apply AT2_loc; [intros; ring|exact Hj]. }
  rewrite (gs_loop_sweeps n _ _ tol Ht); [| | |exact Hi].
  - unfold sweeps. apply (iter_cong n); [|exact Hi]. intros x y E j Hj. apply step2_jac; assumption.
  - intros x y E j Hj. rewrite !gs_val, (nbs_loc s K C HP HC Hv x y E j Hj). reflexivity.
  - intros x F j Hj. pose proof (rrs_zero n _ _ F j Hj) as Q. cbv beta in Q. change (seq 0 K) with axes in Q.
    assert (L : td2_AT s axes C (td2_A s axes C x) j = ctr s K j * x j - nbs s K x j) by exact (lap2 s K C HP HC Hv x j Hj). rewrite L in Q.
    rewrite gs_val. pose proof (M2_pos j Hj) as MP. unfold M2 in MP. apply (Rmult_eq_reg_r (wd j * wd j + rho * ctr s K j)); [|lra]. unfold Rdiv. rewrite Rmult_assoc, Rinv_l by lra. lra.
Qed.
Lemma split2 x i : (i < n)%nat -> M2 i * x i - N2 x i = HT2 (H2 x) i + rho * td2_AT s axes C (td2_A s axes C x) i.
Proof.
  intros Hi. assert (L : td2_AT s axes C (td2_A s axes C x) i = ctr s K i * x i - nbs s K x i) by exact (lap2 s K C HP HC Hv x i Hi). rewrite L. unfold M2, N2, HT2, H2. apply Nat.ltb_lt in Hi. rewrite Hi. ring.
Qed.
Lemma H2_lin : linear_map H2.
Proof. intros a x b y i. unfold H2. destruct (Nat.ltb i n); ring. Qed.
Lemma H2_loc : local_map n H2.
Proof. intros x y E i. unfold H2. destruct (Nat.ltb_spec i n); [rewrite E by assumption|]; reflexivity. Qed.
Lemma H2_adj x v : dot n (H2 x) v = dot n x (HT2 v).
Proof. unfold dot. apply sumn_ext. intros i Hi. unfold H2, HT2. apply Nat.ltb_lt in Hi. rewrite Hi. ring. Qed.
Lemma kap2 : exists k, 0 < k /\ (forall x, k * nrm2 n x <= sumn n (fun i => M2 i * x i * x i) + dot n (N2 x) x) /\ (forall x, k * nrm2 n x <= nrm2 n (H2 x) + rho * nrm2 m2 (td2_A s axes C x)).
Proof.
  destruct (min_weight n (fun i => wd i * wd i) wd2) as (k & Hk & B). exists k. split; [exact Hk|].
  assert (E : forall x, k * nrm2 n x <= sumn n (fun i => wd i * wd i * x i * x i)).
  { intros x. unfold nrm2, dot. rewrite <- sumn_scal. apply sumn_le. intros i Hi. specialize (B i Hi). cbv beta in B. pose proof (Rle_0_sqr (x i)) as Q. unfold Rsqr in Q. rewrite Rmult_assoc. apply Rmult_le_compat_r; assumption. }
  split; intros x; eapply Rle_trans; [apply E| |apply E|].
  - assert (SL : 0 <= sumn n (fun i => ctr s K i * x i * x i) + dot n (nbs s K x) x) by exact (signless_all s K C HP HC Hv x). apply (Rmult_le_compat_l rho) in SL; [|lra]. rewrite Rmult_0_r, Rmult_plus_distr_l in SL.
    unfold dot in *. rewrite <- !sumn_scal in SL. rewrite <- sumn_plus in SL. rewrite <- sumn_plus. rewrite <- (Rplus_0_r (sumn n (fun i => wd i * wd i * x i * x i))).
    eapply Rle_trans; [apply Rplus_le_compat_l; exact SL|]. rewrite <- sumn_plus. apply Req_le. apply sumn_ext. intros i _. unfold M2, N2. ring.
  - pose proof (nrm2_nonneg m2 (td2_A s axes C x)) as Q. assert (0 <= rho * nrm2 m2 (td2_A s axes C x)) by (apply Rmult_le_pos; lra).
    assert (E2 : nrm2 n (H2 x) = sumn n (fun i => wd i * wd i * x i * x i)); [|lra]. unfold nrm2, dot. apply sumn_ext. intros i Hi. unfold H2. apply Nat.ltb_lt in Hi. rewrite Hi. ring.
Qed.
End steps.

Section steps1.
Context (s : list nat) (K C : nat) (lam rho rlx : R) (S wd w : vec).
Let axes := seq 0 K.
Let P := prod s.
Let n := (C * P)%nat.
Let m1 := (K * C * P + n)%nat.
Context (HP : (0 < P)%nat) (HC : (0 < C)%nat) (Hv : valid_axes s axes) (Hrho : 0 < rho).
(** TVL1Denoise. *)
Definition M1 (i : nat) : R := rho * (1 + ctr s K i).
Definition Z1 (x : vec) : vec := fun _ => 0.
Lemma M1_pos i : 0 < M1 i.
Proof. unfold M1. pose proof (ctr_nonneg s K C HP HC Hv i). apply Rmult_lt_0_compat; lra. Qed.
Lemma AT1_loc u v : (forall i, (i < m1)%nat -> u i = v i) -> forall i, (i < n)%nat -> td1_AT s axes C u i = td1_AT s axes C v i.
Proof. exact (AT_local s C m1 _ _ (adj1 s K C HP HC Hv) u v). Qed.
Lemma c_head i : (i < K * C * P)%nat -> td1_c s axes C S i = 0.
Proof. intros Hi. unfold td1_c, axes. rewrite seq_length. change (prod s) with P. apply Nat.ltb_lt in Hi. rewrite Hi. reflexivity. Qed.
Lemma c_tail i : td1_c s axes C S (K * C * P + i)%nat = S i.
Proof. unfold td1_c, axes. rewrite seq_length. change (prod s) with P. destruct (Nat.ltb_spec (K * C * P + i) (K * C * P)); [lia|]. f_equal. lia. Qed.
Lemma xstep1 r tol X Y U i : tol <= 0 -> (i < n)%nat ->
  td1_xstep s axes C r tol S X Y U i = sweeps M1 (N2 s K rho) r (rhs Z1 (fun _ => 0) (td1_AT s axes C) (td1_c s axes C S) rho Y U) X i.
Proof.
  intros Ht Hi. unfold td1_xstep. cbv zeta. assert (LA : length axes = K) by apply seq_length. rewrite !LA. change (prod s) with P.
  set (YU := fun i0 => Y i0 - U i0). set (SYU := fun i0 => S i0 + YU (K * C * P + i0)%nat). set (AY := td1_AT s axes C (fun i0 => if Nat.ltb i0 (K * C * P) then YU i0 else 0)).
  assert (Es : forall v, (forall j, (j < K * C * P)%nat -> v j = YU j) -> (forall j, (j < n)%nat -> v (K * C * P + j)%nat = SYU j) -> forall j, (j < n)%nat -> td1_AT s axes C v j = AY j + SYU j).
  { intros v V1 V2 j Hj. assert (E : td1_AT s axes C v j = td1_AT s axes C (fun r0 => if Nat.ltb r0 (K * C * P) then v r0 else 0) j + v (K * C * P + j)%nat) by exact (AT1_split s K C HP HC Hv v j Hj).
    rewrite E, (V2 j Hj). f_equal. unfold AY. apply AT1_loc; [|exact Hj]. intros q _. destruct (Nat.ltb_spec q (K * C * P)); [apply V1; assumption|reflexivity]. }
  assert (Eb : forall j, (j < n)%nat -> rhs Z1 (fun _ => 0) (td1_AT s axes C) (td1_c s axes C S) rho Y U j = rho * (AY j + SYU j)).
  { intros j Hj. unfold rhs, Z1. rewrite Es; [ring| | |exact Hj]; cbv beta; [intros q Hq; rewrite c_head by exact Hq; unfold YU; ring|intros q _; rewrite c_tail; unfold SYU, YU; ring]. }
  rewrite (gs_loop_sweeps n _ _ tol Ht); [| | |exact Hi].
  - unfold sweeps. apply (iter_cong n); [|exact Hi]. intros x y E j Hj. rewrite (gs_val s K C HP HC). unfold jac, M1, N2. rewrite (Eb j Hj), (nbs_loc s K C HP HC Hv x y E j Hj).
    pose proof (ctr_nonneg s K C HP HC Hv j). unfold AY, SYU, YU. field. split; lra.
  - intros x y E j Hj. rewrite !(gs_val s K C HP HC), (nbs_loc s K C HP HC Hv x y E j Hj). reflexivity.
  - intros x F j Hj. pose proof (rrs_zero n _ _ F j Hj) as Q. cbv beta in Q.
    assert (L : td1_AT s axes C (td1_A s axes C x) j = (1 + ctr s K j) * x j - nbs s K x j) by exact (lap1 s K C HP HC Hv x j Hj). rewrite L in Q.
    rewrite Es in Q; [| | |exact Hj]; cbv beta; [|intros q Hq; rewrite c_head by exact Hq; unfold YU, eq_B; ring|intros q _; rewrite c_tail; unfold SYU, YU, eq_B; ring].
    rewrite (gs_val s K C HP HC). pose proof (ctr_nonneg s K C HP HC Hv j) as MP. apply (Rmult_eq_reg_r (1 + 1 * ctr s K j)); [|lra]. unfold Rdiv. unfold AY, SYU, YU in Q. rewrite Rmult_assoc, Rinv_l by lra. lra.
Qed.
Lemma split1 x i : (i < n)%nat -> M1 i * x i - N2 s K rho x i = Z1 (Z1 x) i + rho * td1_AT s axes C (td1_A s axes C x) i.
Proof.
  intros Hi. assert (L : td1_AT s axes C (td1_A s axes C x) i = (1 + ctr s K i) * x i - nbs s K x i) by exact (lap1 s K C HP HC Hv x i Hi). rewrite L. unfold M1, N2, Z1. ring.
Qed.
Lemma nrm2_A1 x : nrm2 n x <= nrm2 m1 (td1_A s axes C x).
Proof.
  unfold m1. rewrite nrm2_head. pose proof (nrm2_nonneg (K * C * P) (td1_A s axes C x)) as Q.
  assert (E : nrm2 n (fun k => td1_A s axes C x (K * C * P + k)%nat) = nrm2 n x); [|lra]. apply nrm2_ext. intros i Hi. exact (A1_tail s K C HP HC x i Hi).
Qed.
Lemma plus1 x : rho * nrm2 n x <= sumn n (fun i => M1 i * x i * x i) + dot n (N2 s K rho x) x.
Proof.
  assert (SL : 0 <= sumn n (fun i => ctr s K i * x i * x i) + dot n (nbs s K x) x) by exact (signless_all s K C HP HC Hv x). apply (Rmult_le_compat_l rho) in SL; [|lra]. rewrite Rmult_0_r, Rmult_plus_distr_l in SL.
  unfold nrm2, dot in *. rewrite <- !sumn_scal in SL. rewrite <- sumn_plus in SL. rewrite <- sumn_plus, <- sumn_scal. rewrite <- (Rplus_0_r (sumn n (fun i => rho * (x i * x i)))).
  eapply Rle_trans; [apply Rplus_le_compat_l; exact SL|]. rewrite <- sumn_plus. apply Req_le. apply sumn_ext. intros i _. unfold M1, N2. ring.
Qed.
(** The y step. *)
Lemma ystep1d ax u (y : vec) : 0 <= lam -> (forall q, (q < P)%nat -> 0 <= w q) -> (forall k, (k < n)%nat -> 0 <= wd k) ->
  let p := td1_ystep s axes C lam rho w wd S ax u in let c := td1_c s axes C S in
  tvg (K * C) P lam w p + tail1 (K * C * P) n wd p + rho / 2 * nrm2 m1 (fun i => ax i - p i - c i + u i) <=
  tvg (K * C) P lam w y + tail1 (K * C * P) n wd y + rho / 2 * nrm2 m1 (fun i => ax i - y i - c i + u i).
Proof.
  intros Hl Hw Hwd p c. unfold m1. rewrite !nrm2_head.
  pose proof (ystep2_min (K * C) P lam rho w ax u y Hl Hrho Hw) as M. cbv zeta in M. set (p2 := tvl2_ystep (K * C) P lam rho w ax u) in *.
  assert (Ep : forall i, (i < K * C * P)%nat -> p i = p2 i).
  { intros i Hi. unfold p, td1_ystep, td2_ystep, axes. rewrite seq_length. change (prod s) with P. apply Nat.ltb_lt in Hi. rewrite Hi. reflexivity. }
  assert (Et : tvg (K * C) P lam w p = tvg (K * C) P lam w p2).
  { unfold tvg. f_equal. apply sumn_ext. intros q Hq. f_equal. apply nrm_ext. intros r Hr1. unfold col. apply Ep. nia. }
  rewrite Et. rewrite (nrm2_ext (K * C * P) (fun i => ax i - p i - c i + u i) (fun i => ax i - p2 i + u i)) by (intros i Hi; rewrite Ep by exact Hi; unfold c; rewrite c_head by exact Hi; ring).
  rewrite (nrm2_ext (K * C * P) (fun i => ax i - y i - c i + u i) (fun i => ax i - y i + u i)) by (intros i Hi; unfold c; rewrite c_head by exact Hi; ring).
  set (o := (K * C * P)%nat) in *.
  enough (T : tail1 o n wd p + rho / 2 * nrm2 n (fun k => ax (o + k)%nat - p (o + k)%nat - c (o + k)%nat + u (o + k)%nat) <=
              tail1 o n wd y + rho / 2 * nrm2 n (fun k => ax (o + k)%nat - y (o + k)%nat - c (o + k)%nat + u (o + k)%nat)) by lra.
  clear M Et Ep. unfold tail1, nrm2, dot. rewrite <- !sumn_scal, <- !sumn_plus. apply sumn_le. intros k Hk. unfold c, o. rewrite c_tail. fold o.
  pose proof (soft_min (ax (o + k)%nat + u (o + k)%nat - S k) (wd k) rho (y (o + k)%nat) (Hwd k Hk) Hrho) as M. cbv zeta in M.
  assert (Ek : p (o + k)%nat = prox_l1 (fun _ => ax (o + k)%nat + u (o + k)%nat - S k) (fun _ => wd k / rho) 0).
  { unfold p, td1_ystep, axes. rewrite seq_length. change (prod s) with P. fold o. assert (L : Nat.ltb (o + k) o = false) by (apply Nat.ltb_ge; lia). rewrite L. replace (o + k - o)%nat with k by lia.
    unfold prox_l1. replace (1 / rho * wd k) with (wd k / rho) by (field; lra). reflexivity. }
  rewrite Ek. set (pk := prox_l1 _ _ _) in *. clearbody pk.
  replace ((ax (o + k)%nat - pk - S k + u (o + k)%nat) * (ax (o + k)%nat - pk - S k + u (o + k)%nat)) with ((ax (o + k)%nat + u (o + k)%nat - S k - pk) * (ax (o + k)%nat + u (o + k)%nat - S k - pk)) by ring.
  replace ((ax (o + k)%nat - y (o + k)%nat - S k + u (o + k)%nat) * (ax (o + k)%nat - y (o + k)%nat - S k + u (o + k)%nat)) with ((ax (o + k)%nat + u (o + k)%nat - S k - y (o + k)%nat) * (ax (o + k)%nat + u (o + k)%nat - S k - y (o + k)%nat)) by ring.
  exact M.
Qed.
End steps1.
