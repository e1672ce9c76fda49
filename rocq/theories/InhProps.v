(** C90: what ConvBPDNInhib computes. *)
Require Import List Arith ZArith Reals Bool Lia Lra Psatz FunctionalExtensionality.
Require Import Verif.RVec Verif.Cplx Verif.FftModel Verif.FftProofs Verif.FftInv Verif.CscModel Verif.CscSpec Verif.CscProofs Verif.CscProps Verif.CscIterModel Verif.CscIterProofs Verif.CscIterProps.
Require Import Verif.AdmmModel Verif.AdmmSpec Verif.AdmmProofs Verif.AdmmConv Verif.AdmmProps Verif.StepsModel Verif.StepsSpec Verif.StepsProofs Verif.ProxModel Verif.ProxProofs Verif.LimitProofs.
Require Import Verif.TvdFourier Verif.InhModel Verif.InhSpec Verif.InhProofs.
Import ListNotations.
Local Open Scope R_scope.

(** The windows: construction fails exactly if the window (its length made odd) exceeds the signal along some axis; otherwise Whl
    is the weighting of the documentation, and Whs is the same with zero at the origin. *)
Theorem C90_windows s axes w win : NoDup axes -> axes <> [] -> (forall j, 0 <= win j) ->
  (windows s axes w win = None <-> exists ax, In ax axes /\ (s ax < odd_up w)%nat) /\
  (forall hl hs, windows s axes w win = Some (hl, hs) ->
    (exists r, (odd_up w = 2 * r + 1)%nat /\ weighting s axes r win hl) /\
    (forall k, hs k = if forallb (fun ax => Nat.eqb (k ax) 0) axes then 0 else hl k)).
Proof.
  intros ND Hne Hwin. split.
  - unfold windows. cbv zeta. destruct (forallb (fun ax => Nat.leb (odd_up w) (s ax)) axes) eqn:F.
    + split; [discriminate|]. intros (ax & Ha & L). rewrite forallb_forall in F. specialize (F ax Ha). apply Nat.leb_le in F. lia.
    + split; [intros _|reflexivity]. clear - F. induction axes as [|a L IH]; [discriminate|]. cbn [forallb] in F. destruct (Nat.leb_spec (odd_up w) (s a)) as [H|H].
      * destruct (IH F) as (ax & Ha & Hl). exists ax. split; [right; exact Ha|exact Hl].
      * exists a. split; [left; reflexivity|exact H].
  - intros hl hs H. split; [apply (windows_weighting s axes w win hl hs); assumption|]. intros k. unfold windows in H. cbv zeta in H.
    destruct (forallb (fun ax => Nat.leb (odd_up w) (s ax)) axes); [|discriminate]. assert (E : (centred s axes (odd_up w) win, without_origin axes (centred s axes (odd_up w) win)) = (hl, hs)) by congruence.
    assert (E1 : hl = centred s axes (odd_up w) win) by congruence. assert (E2 : hs = without_origin axes (centred s axes (odd_up w) win)) by congruence. subst. reflexivity.
Qed.
Print Assumptions C90_windows.

Section C90.
Variables (s dsh : nat -> nat) (axes : list nat) (M Cd : nat) (D : nat -> nat -> index -> R) (S : nat -> index -> R).
Variables (rho rlx : R) (base : index) (z : nat -> bool) (nonneg : bool) (lmbda mu gamma smooth : R) (wl1 : vec).
Variables (Wg : option (nat * (nat -> nat -> R))) (w : nat) (win : nat -> R) (hl hs : index -> R).
Hypothesis ND : NoDup axes.
Hypothesis Hne : axes <> [].
Hypothesis Hs : forall ax, In ax axes -> (0 < s ax)%nat.
Hypothesis HC : (0 < Cd)%nat.
Hypothesis Hrho : 0 < rho.
Hypothesis Hl : 0 <= lmbda.
Hypothesis Hmu : 0 <= mu.
Hypothesis Hga : 0 <= gamma.
Hypothesis Hsm : 0 <= smooth < 1.
Notation P := (size s axes).
Notation n := (M * size s axes)%nat.
Hypothesis Hw : forall i, (i < n)%nat -> 0 <= wl1 i.
Hypothesis Hwin : forall j, 0 <= win j.
Hypothesis Hh : windows s axes w win = Some (hl, hs).
Hypothesis HW : match Wg with None => True | Some (Ng, W) => binary Ng W end.

(** The number of common groups of different filters; no groups, no lateral inhibition. *)
Definition common (m k : nat) : R := match Wg with None => 0 | Some (Ng, W) => share Ng W m k end.
(** Weight of coefficient i in the penalty lmbda |x_m| + mu omega_m |x_m| + gamma z_m |x_m| for the activity of X. *)
Definition weight_of (X : vec) : vec := fun i =>
  let A := fun m p => X (m * size s axes + rank s axes p)%nat in
  lmbda * wl1 i + mu * omega s axes M common hl A (i / P) (place s axes base (i mod P)) + gamma * zeta s axes hs A (i / P) (place s axes base (i mod P)).
(** X minimises the sparse coding objective in which the weights are those of its own activity, kept fixed. *)
Definition equilibrium (X : vec) : Prop := argmin (allowed n z nonneg) (csc_objective s dsh axes M Cd D S QNone base 1 (weight_of X)) X.
Notation step := (in_iteration s dsh axes M Cd D S rho rlx base z nonneg lmbda mu gamma smooth wl1 Wg hl hs).
Notation run := (in_iterate s dsh axes M Cd D S rho rlx base z nonneg lmbda mu gamma smooth wl1 Wg hl hs).
Notation pln := (plain mu gamma Wg).
Notation pl := (place s axes base).

Lemma hl_nonneg k : (forall ax, In ax axes -> (k ax < s ax)%nat) -> 0 <= hl k.
Proof. intros Hk. destruct (windows_weighting s axes w win hl hs ND Hne Hwin Hh) as (r & _ & H). apply (weighting_nonneg s axes r win hl k H Hk). Qed.
Lemma hs_eq k : hs k = if forallb (fun ax => Nat.eqb (k ax) 0) axes then 0 else hl k.
Proof. destruct (C90_windows s axes w win ND Hne Hwin) as [_ H]. destruct (H hl hs Hh) as [_ E]. apply E. Qed.
Lemma hs_nonneg k : (forall ax, In ax axes -> (k ax < s ax)%nat) -> 0 <= hs k.
Proof. intros Hk. rewrite hs_eq. destruct (forallb _ axes); [lra|apply hl_nonneg; exact Hk]. Qed.
Lemma minus_in (p q : index) : (forall ax, In ax axes -> (p ax < s ax)%nat) -> forall ax, In ax axes -> (minus s axes p q ax < s ax)%nat.
Proof. intros Hp ax Ha. unfold minus. rewrite in_existsb by exact Ha. apply Nat.mod_upper_bound. specialize (Hs ax Ha). lia. Qed.

(** New weights in the spatial domain. *)
Definition lat (X : vec) : vec := fun i => sumn M (fun k => common (i / P) k * sumn P (fun l => hl (minus s axes (pl (i mod P)) (pl l)) * Rabs (X (k * P + l)%nat))).
Definition slf (X : vec) : vec := fun i => sumn P (fun l => hs (minus s axes (pl (i mod P)) (pl l)) * Rabs (X (i / P * P + l)%nat)).
Lemma omega_lat X i : (i < n)%nat -> omega s axes M common hl (fun m p => X (m * size s axes + rank s axes p)%nat) (i / P) (pl (i mod P)) = lat X i.
Proof.
  intros Hi. destruct (below s axes Hs M i Hi) as (H1 & H2 & _). unfold omega, lat. apply sumn_ext. intros k Hk. f_equal.
  rewrite (conv_mat s axes base ND Hs) by (apply pl_on; assumption). apply sumn_ext. intros l Hl'. f_equal. f_equal. apply (arr_at s axes base ND Hs X k l Hl').
Qed.
Lemma zeta_slf X i : (i < n)%nat -> zeta s axes hs (fun m p => X (m * size s axes + rank s axes p)%nat) (i / P) (pl (i mod P)) = slf X i.
Proof.
  intros Hi. destruct (below s axes Hs M i Hi) as (H1 & H2 & _). unfold zeta, slf.
  rewrite (conv_mat s axes base ND Hs) by (apply pl_on; assumption). apply sumn_ext. intros l Hl'. f_equal. f_equal. apply (arr_at s axes base ND Hs X (i / P) l Hl').
Qed.
Lemma weight_lat X i : (i < n)%nat -> weight_of X i = lmbda * wl1 i + mu * lat X i + gamma * slf X i.
Proof. intros Hi. unfold weight_of. cbv zeta. rewrite omega_lat, zeta_slf by exact Hi. reflexivity. Qed.
Lemma common_nonneg m k : 0 <= common m k.
Proof. unfold common. destruct Wg as [[Ng W]|]; [apply share_nonneg; exact HW|lra]. Qed.
Lemma lat_nonneg X i : (i < n)%nat -> 0 <= lat X i.
Proof.
  intros Hi. destruct (below s axes Hs M i Hi) as (H1 & H2 & _). unfold lat. apply sumn_nonneg. intros k _. apply Rmult_le_pos; [apply common_nonneg|].
  apply sumn_nonneg. intros l _. apply Rmult_le_pos; [|apply Rabs_pos]. apply hl_nonneg. apply minus_in. apply (pl_on s axes base ND Hs _ H2).
Qed.
Lemma slf_nonneg X i : (i < n)%nat -> 0 <= slf X i.
Proof.
  intros Hi. destruct (below s axes Hs M i Hi) as (H1 & H2 & _). unfold slf. apply sumn_nonneg. intros l _. apply Rmult_le_pos; [|apply Rabs_pos].
  apply hs_nonneg. apply minus_in. apply (pl_on s axes base ND Hs _ H2).
Qed.
Lemma lat_ext X X' i : (i < n)%nat -> (forall j, (j < n)%nat -> X j = X' j) -> lat X i = lat X' i.
Proof. intros Hi H. unfold lat. apply sumn_ext. intros k Hk. f_equal. apply sumn_ext. intros l Hl'. rewrite H; [reflexivity|]. nia. Qed.
Lemma slf_ext X X' i : (i < n)%nat -> (forall j, (j < n)%nat -> X j = X' j) -> slf X i = slf X' i.
Proof. intros Hi H. destruct (below s axes Hs M i Hi) as (H1 & H2 & _). unfold slf. apply sumn_ext. intros l Hl'. rewrite H; [reflexivity|]. nia. Qed.
Lemma flat_lateral Ng W X i : Wg = Some (Ng, W) -> (i < n)%nat -> cs_flat s axes base (lateral M Ng W (spread s axes hl X)) i = lat X i.
Proof.
  intros E Hi. destruct (below s axes Hs M i Hi) as (H1 & H2 & _). unfold cs_flat, lat, common. rewrite E in *. rewrite lateral_split by exact H1. rewrite binary_diag by exact HW.
  rewrite Rmult_0_l, Rplus_0_r. apply sumn_ext. intros k Hk. f_equal. apply (spread_mat s axes base ND Hne Hs); exact H2.
Qed.
Lemma flat_spread X i : (i < n)%nat -> cs_flat s axes base (spread s axes hs X) i = slf X i.
Proof. intros Hi. destruct (below s axes Hs M i Hi) as (H1 & H2 & _). unfold cs_flat, slf. apply (spread_mat s axes base ND Hne Hs); exact H2. Qed.

Lemma Wg_cases : (exists Ng W, Wg = Some (Ng, W)) \/ Wg = None.
Proof. destruct Wg as [[Ng W]|]; [left; exists Ng, W; reflexivity|right; reflexivity]. Qed.
Lemma lat_none X i : Wg = None -> lat X i = 0.
Proof. intros E. unfold lat, common. rewrite E. rewrite (sumn_ext M _ (fun _ => 0)) by (intros; ring). apply sumn_0. reflexivity. Qed.
Lemma wml_some Ng W X wml i : Wg = Some (Ng, W) -> 0 < mu -> (i < n)%nat -> new_wml s axes M base mu smooth Wg hl X wml i = smooth * wml i + (1 - smooth) * lat X i.
Proof. intros E Hm Hi. rewrite <- (flat_lateral Ng W X i E Hi). unfold new_wml. rewrite E. destruct (Rlt_dec 0 mu); [reflexivity|contradiction]. Qed.
Lemma wml_mu0 X wml : ~ 0 < mu -> new_wml s axes M base mu smooth Wg hl X wml = wml.
Proof. intros Hm. unfold new_wml. destruct Wg as [[Ng W]|]; [|reflexivity]. destruct (Rlt_dec 0 mu); [contradiction|reflexivity]. Qed.
Lemma wml_none X wml : Wg = None -> new_wml s axes M base mu smooth Wg hl X wml = wml.
Proof. intros E. unfold new_wml. rewrite E. reflexivity. Qed.
Lemma wms_pos X wms i : 0 < gamma -> (i < n)%nat -> new_wms s axes base gamma smooth hs X wms i = smooth * wms i + (1 - smooth) * slf X i.
Proof. intros Hg Hi. unfold new_wms. destruct (Rlt_dec 0 gamma); [|contradiction]. rewrite flat_spread by exact Hi. reflexivity. Qed.
Lemma wms_0 X wms : ~ 0 < gamma -> new_wms s axes base gamma smooth hs X wms = wms.
Proof. intros Hg. unfold new_wms. destruct (Rlt_dec 0 gamma); [contradiction|reflexivity]. Qed.

(** The arrays wml and wms are moving averages of the weights of the documentation, evaluated in the spatial domain. *)
Theorem C90_weights Ng W X wml wms i : (i < n)%nat -> Wg = Some (Ng, W) -> 0 < mu -> 0 < gamma ->
  let A := fun m p => X (m * size s axes + rank s axes p)%nat in
  new_wml s axes M base mu smooth Wg hl X wml i = smooth * wml i + (1 - smooth) * omega s axes M (share Ng W) hl A (i / P) (pl (i mod P)) /\
  new_wms s axes base gamma smooth hs X wms i = smooth * wms i + (1 - smooth) * zeta s axes hs A (i / P) (pl (i mod P)).
Proof.
  intros Hi E Hm Hg A. pose proof (omega_lat X i Hi) as E1. pose proof (zeta_slf X i Hi) as E2.
  assert (EA : omega s axes M (share Ng W) hl A (i / P) (pl (i mod P)) = lat X i) by (rewrite <- E1; unfold omega, common, A; rewrite E; reflexivity).
  split.
  - rewrite EA. apply (wml_some Ng W); assumption.
  - refine (eq_trans (wms_pos X wms i Hg Hi) _). do 2 f_equal. symmetry. exact E2.
Qed.
Lemma new_wml_nonneg X wml i : (i < n)%nat -> 0 <= wml i -> 0 <= new_wml s axes M base mu smooth Wg hl X wml i.
Proof.
  intros Hi H. destruct Wg_cases as [(Ng & W & E)|E]; [|rewrite wml_none by exact E; exact H].
  destruct (Rlt_dec 0 mu) as [Q|Q]; [|rewrite wml_mu0 by exact Q; exact H]. rewrite (wml_some Ng W) by assumption. pose proof (lat_nonneg X i Hi). nra.
Qed.
Lemma new_wms_nonneg X wms i : (i < n)%nat -> 0 <= wms i -> 0 <= new_wms s axes base gamma smooth hs X wms i.
Proof. intros Hi H. destruct (Rlt_dec 0 gamma) as [Q|Q]; [|rewrite wms_0 by exact Q; exact H]. rewrite wms_pos by assumption. pose proof (slf_nonneg X i Hi). nra. Qed.
(** Thresholds are never negative. *)
Theorem C90_nonneg Y0 U0 k i : (i < n)%nat -> 0 <= iml (run k (in_start Y0 U0)) i /\ 0 <= ims (run k (in_start Y0 U0)) i.
Proof.
  intros Hi. induction k as [|k [I1 I2]]; [cbn; lra|]. cbn [in_iterate]. set (st := run k (in_start Y0 U0)) in *. unfold in_iteration. cbn [iml ims].
  destruct pln; [split; assumption|]. split; [apply new_wml_nonneg|apply new_wms_nonneg]; assumption.
Qed.
(** Without inhibition terms the class is ConvBPDN. *)
Theorem C90_plain Y0 U0 k X0 Yp : (Wg = None \/ mu = 0) -> gamma = 0 ->
  let st := run k (in_start Y0 U0) in let st' := cs_iterate s dsh axes M Cd D S QNone rho rlx base z nonneg lmbda wl1 k (mkState X0 Y0 U0 Yp) in
  iY st = sY st' /\ iU st = sU st'.
Proof.
  intros Ho Hg. assert (E : pln = true).
  { unfold plain. rewrite Hg. destruct (Req_EM_T 0 0); [|contradiction]. rewrite Bool.andb_true_r. destruct Wg; [|reflexivity]. destruct Ho as [Ho|Ho]; [discriminate|]. rewrite Ho. destruct (Req_EM_T 0 0); [reflexivity|contradiction]. }
  cbv zeta. induction k as [|k [I1 I2]]; [split; reflexivity|]. cbn [in_iterate]. unfold cs_iterate in *. cbn [iterate].
  set (a := run k (in_start Y0 U0)) in *. set (b := iterate eq_A eq_B eq_c rlx (cs_xstep s dsh axes M Cd D S QNone rho base) (cs_ystep z nonneg lmbda rho wl1) k (mkState X0 Y0 U0 Yp)) in *.
  unfold in_iteration, iteration, in_ystep. cbn [iY iU sY sU]. rewrite E, I1, I2. split; reflexivity.
Qed.

(** *** Stationary states *)
Definition eff (st : istate) : vec := fun i => if pln then lmbda * wl1 i else lmbda * wl1 i + mu * iml st i + gamma * ims st i.
Lemma ystep_eff st AX U : in_ystep rho z nonneg lmbda mu gamma wl1 Wg (iml st) (ims st) AX U = cs_ystep z nonneg 1 rho (eff st) AX U.
Proof.
  unfold in_ystep, eff. destruct pln.
  - extensionality i. unfold cs_ystep, bpdn_ystep. destruct (z i); [reflexivity|]. do 2 f_equal. extensionality p. field. lra.
  - extensionality i. unfold cs_ystep, bpdn_ystep. destruct (z i); [reflexivity|]. do 2 f_equal. extensionality p. field. lra.
Qed.
Definition as_state (st : istate) : state := mkState (iX st) (iY st) (iU st) (iY st).
Lemma step_eff st : let a := step st in let b := cs_iterate s dsh axes M Cd D S QNone rho rlx base z nonneg 1 (eff st) 1 (as_state st) in
  iX a = sX b /\ iY a = sY b /\ iU a = sU b.
Proof. cbv zeta. unfold cs_iterate. cbn [iterate]. unfold iteration, in_iteration, as_state. cbn [iX iY iU sX sY sU]. rewrite ystep_eff. repeat split; reflexivity. Qed.
(** An iteration leaves Y, U and the weights unchanged. *)
Definition stationary (st : istate) : Prop := forall i, (i < n)%nat ->
  iY (step st) i = iY st i /\ iU (step st) i = iU st i /\ iml (step st) i = iml st i /\ ims (step st) i = ims st i.
Definition started (st : istate) : Prop := Wg = None -> forall i, (i < n)%nat -> iml st i = 0.
Lemma eff_weight st X : started st -> (pln = false -> (forall i, (i < n)%nat -> new_wml s axes M base mu smooth Wg hl X (iml st) i = iml st i) /\
    (forall i, (i < n)%nat -> new_wms s axes base gamma smooth hs X (ims st) i = ims st i)) ->
  forall i, (i < n)%nat -> eff st i = weight_of X i.
Proof.
  intros H0 H i Hi. rewrite weight_lat by exact Hi. unfold eff. destruct pln eqn:Ep.
  - unfold plain in Ep. apply andb_prop in Ep. destruct Ep as [E1 E2]. destruct (Req_EM_T gamma 0) as [E|]; [|discriminate]. rewrite E.
    assert (Q : mu * lat X i = 0).
    { destruct Wg_cases as [(Ng & W & E')|E']; [|rewrite lat_none by exact E'; ring]. rewrite E' in E1. destruct (Req_EM_T mu 0) as [->|]; [ring|discriminate]. }
    rewrite Q. ring.
  - destruct (H eq_refl) as [H1 H2]. specialize (H1 i Hi). specialize (H2 i Hi).
    assert (Q1 : mu * iml st i = mu * lat X i).
    { destruct Wg_cases as [(Ng & W & E)|E]; [|rewrite (H0 E i Hi), lat_none by exact E; ring].
      destruct (Rlt_dec 0 mu) as [Q|Q]; [|replace mu with 0 by lra; ring]. rewrite (wml_some Ng W) in H1 by assumption. f_equal. nra. }
    assert (Q2 : gamma * ims st i = gamma * slf X i).
    { destruct (Rlt_dec 0 gamma) as [Q|Q]; [|replace gamma with 0 by lra; ring]. rewrite wms_pos in H2 by assumption. f_equal. nra. }
    rewrite Q1, Q2. ring.
Qed.
Lemma weight_nonneg X i : (i < n)%nat -> 0 <= weight_of X i.
Proof. intros Hi. rewrite weight_lat by exact Hi. pose proof (lat_nonneg X i Hi). pose proof (slf_nonneg X i Hi). pose proof (Hw i Hi). pose proof (Rmult_le_pos _ _ Hl H1). pose proof (Rmult_le_pos _ _ Hmu H). pose proof (Rmult_le_pos _ _ Hga H0). lra. Qed.
Lemma weight_ext X X' i : (i < n)%nat -> (forall j, (j < n)%nat -> X j = X' j) -> weight_of X i = weight_of X' i.
Proof. intros Hi H. rewrite !weight_lat by exact Hi. rewrite (lat_ext X X'), (slf_ext X X') by assumption. reflexivity. Qed.
Lemma obj_weights v v' x : (forall i, (i < n)%nat -> v i = v' i) -> csc_objective s dsh axes M Cd D S QNone base 1 v x = csc_objective s dsh axes M Cd D S QNone base 1 v' x.
Proof. intros H. unfold csc_objective. cbv zeta. do 2 f_equal. apply sumn_ext. intros i Hi. rewrite H by exact Hi. reflexivity. Qed.

(** A stationary state is an equilibrium. *)
Theorem C90_stationary st : rlx <> 0 -> started st -> stationary st ->
  (forall i, (i < n)%nat -> iX (step st) i = iY (step st) i) /\ equilibrium (iY (step st)).
Proof.
  intros Hr H0 H. destruct (step_eff st) as (E1 & E2 & E3). cbv zeta in E1, E2, E3. set (X := iX (step st)).
  assert (Ew : forall i, (i < n)%nat -> eff st i = weight_of X i).
  { apply eff_weight; [exact H0|]. intros Ep. split; intros i Hi; specialize (H i Hi); unfold in_iteration in H; rewrite Ep in H; cbn [iml ims] in H; apply H. }
  assert (Ew0 : forall i, (i < n)%nat -> 0 <= eff st i) by (intros i Hi; rewrite Ew by exact Hi; apply weight_nonneg; exact Hi).
  destruct (C72_stationary s dsh axes M Cd D S QNone base rho rlx 1 z nonneg (eff st) ND Hne Hs HC Logic.I Hrho ltac:(lra) Ew0 (as_state st) Hr) as [Q1 Q2].
  - intros i Hi. rewrite <- E2. cbn [as_state sY]. apply H. exact Hi.
  - intros i Hi. rewrite <- E3. cbn [as_state sU]. apply H. exact Hi.
  - rewrite <- E1, <- E2 in Q1. rewrite <- E2 in Q2. split; [exact Q1|]. destruct Q2 as [A1 A2]. split; [exact A1|]. intros x Hx. specialize (A2 x Hx). cbv beta in A2.
    assert (EQ : forall i, (i < n)%nat -> eff st i = weight_of (iY (step st)) i) by (intros i Hi; rewrite Ew by exact Hi; apply weight_ext; [exact Hi|exact Q1]).
    rewrite !(obj_weights (eff st) _ _ EQ) in A2. exact A2.
Qed.
(** Conversely every equilibrium is the Y of a stationary state. *)
Theorem C90_fixed X : 0 < rlx < 2 -> equilibrium X -> exists U wml wms, started (mkI X X U wml wms) /\ stationary (mkI X X U wml wms).
Proof.
  intros Hr Hq. destruct (Lop_adjoint s dsh axes M Cd D QNone base ND Hne Hs) as [LT HA].
  set (v := weight_of X). assert (Hv : forall i, (i < n)%nat -> 0 <= v i) by (intros; apply weight_nonneg; assumption).
  set (L := Lop s dsh axes M Cd D QNone base) in *. set (sx := sv s axes Cd S base). set (mm := ((Cd + nG axes M QNone) * P)%nat) in *.
  assert (Am : argmin (masked n z nonneg) (fun x => sc_f n mm L sx (q_mu QNone) x + l1reg n 1 v x) X).
  { destruct Hq as [A1 A2]. split; [apply allowed72; exact A1|]. intros x Hx. apply allowed72 in Hx. specialize (A2 x Hx).
    unfold mm, L, sx. rewrite !(obj72 s dsh axes M Cd D S QNone base 1 v ND Hne Hs Logic.I). exact A2. }
  pose proof (sc_saddle n mm L LT sx (q_mu QNone) (Lop_linear s dsh axes M Cd D QNone base) HA (masked n z nonneg) (l1reg n 1 v) rho X (Rle_refl 0) Hrho
    (l1reg_convex _ n 1 v ltac:(lra) (masked_convex n z nonneg)) Am) as Sad.
  set (U := fun i => - sc_grad L LT sx (q_mu QNone) X i / rho) in *.
  set (st := mkI X X U (lat X) (slf X)). exists U, (lat X), (slf X). fold st.
  assert (H0 : started st).
  { intros E i Hi. cbn [st iml]. apply lat_none. exact E. }
  split; [exact H0|].
  assert (Ee : forall i, (i < n)%nat -> eff st i = v i).
  { apply eff_weight; [exact H0|]. intros _. split; intros i Hi; cbn [st iml ims].
    - destruct Wg_cases as [(Ng & W & E)|E]; [|rewrite wml_none by exact E; reflexivity].
      destruct (Rlt_dec 0 mu) as [Q|Q]; [|rewrite wml_mu0 by exact Q; reflexivity]. rewrite (wml_some Ng W) by assumption. ring.
    - destruct (Rlt_dec 0 gamma) as [Q|Q]; [|rewrite wms_0 by exact Q; reflexivity]. rewrite wms_pos by assumption. ring. }
  assert (Cx : forall y u, argmin (fun _ => True) (fun x => auglag n eq_A eq_B eq_c rho (sc_f n mm L sx (q_mu QNone)) (l1reg n 1 (eff st)) x y u) (cs_xstep s dsh axes M Cd D S QNone rho base y u)).
  { intros y u. apply (x72 s dsh axes M Cd D S QNone base rho 1 (eff st) ND Hne Hs HC Logic.I Hrho). }
  assert (Hev : forall i, (i < n)%nat -> 0 <= eff st i) by (intros i Hi; rewrite Ee by exact Hi; apply Hv; exact Hi).
  assert (Gv : forall x, l1reg n 1 (eff st) x = l1reg n 1 v x) by (intros x; unfold l1reg; f_equal; apply sumn_ext; intros i Hi; rewrite Ee by exact Hi; reflexivity).
  assert (Sad' : saddle n eq_A eq_B eq_c rho (fun _ => True) (masked n z nonneg) (sc_f n mm L sx (q_mu QNone)) (l1reg n 1 (eff st)) X X U).
  { destruct Sad as [F1 F2]. split; [exact F1|]. intros x' y' _ Hy. rewrite !Gv. apply F2; [exact Logic.I|exact Hy]. }
  destruct (C36_optimal_stationary n eq_A eq_B eq_c rlx rho (fun _ => True) (masked n z nonneg) (sc_f n mm L sx (q_mu QNone)) (l1reg n 1 (eff st))
    (cs_xstep s dsh axes M Cd D S QNone rho base) (cs_ystep z nonneg 1 rho (eff st)) (eqA_affine n) (eqB_affine n) (sc_convex n mm L sx (q_mu QNone) (Lop_linear s dsh axes M Cd D QNone base) (Rle_refl 0))
    (l1reg_convex _ n 1 (eff st) ltac:(lra) (masked_convex n z nonneg)) Hrho Cx
    (run_Y n (masked n z nonneg) (l1reg n 1 (eff st)) rho (cs_ystep z nonneg 1 rho (eff st)) Hrho (fun ax u => cs_y n z nonneg 1 rho (eff st) ax u ltac:(lra) Hrho Hev)) (as_state st) X Hr Sad') as [S1 S2].
  destruct (step_eff st) as (E1 & E2 & E3). cbv zeta in E1, E2, E3. unfold cs_iterate in E1, E2, E3. cbn [iterate] in E1, E2, E3.
  assert (S1' : forall i, (i < n)%nat -> iY (step st) i = iY st i).
  { intros i Hi. specialize (S1 i Hi). unfold eq_B in S1. apply (f_equal Ropp) in S1. rewrite !Ropp_involutive in S1. rewrite E2. exact S1. }
  assert (S2' : forall i, (i < n)%nat -> iU (step st) i = iU st i) by (intros i Hi; rewrite E3; apply S2; exact Hi).
  assert (XY : forall i, (i < n)%nat -> iX (step st) i = X i).
  { destruct (C72_stationary s dsh axes M Cd D S QNone base rho rlx 1 z nonneg (eff st) ND Hne Hs HC Logic.I Hrho ltac:(lra) Hev (as_state st) ltac:(lra)) as [Q1 _].
    - intros i Hi. specialize (S1' i Hi). rewrite E2 in S1'. exact S1'.
    - intros i Hi. specialize (S2' i Hi). rewrite E3 in S2'. exact S2'.
    - intros i Hi. rewrite E1. refine (eq_trans (Q1 i Hi) _). specialize (S1' i Hi). rewrite E2 in S1'. exact S1'. }
  intros i Hi. split; [apply S1'; exact Hi|]. split; [apply S2'; exact Hi|]. unfold in_iteration in XY |- *. cbn [iml ims iX] in XY |- *. fold st in XY |- *.
  destruct pln; [split; reflexivity|]. cbn [st iml ims]. split.
  - destruct Wg_cases as [(Ng & W & E)|E]; [|rewrite wml_none by exact E; reflexivity].
    destruct (Rlt_dec 0 mu) as [Q|Q]; [|rewrite wml_mu0 by exact Q; reflexivity]. rewrite (wml_some Ng W) by assumption. rewrite (lat_ext _ X i Hi XY). ring.
  - destruct (Rlt_dec 0 gamma) as [Q|Q]; [|rewrite wms_0 by exact Q; reflexivity]. rewrite wms_pos by assumption. rewrite (slf_ext _ X i Hi XY). ring.
Qed.

(** *** Runs which converge *)
Lemma xs_close y u y' u' : nrm2 n (fun i => cs_xstep s dsh axes M Cd D S QNone rho base y u i - cs_xstep s dsh axes M Cd D S QNone rho base y' u' i) <=
  nrm2 n (fun i => (y i - u i) - (y' i - u' i)).
Proof.
  set (xs := cs_xstep s dsh axes M Cd D S QNone rho base).
  set (f := sc_f n ((Cd + nG axes M QNone) * P) (Lop s dsh axes M Cd D QNone base) (sv s axes Cd S base) (q_mu QNone)).
  assert (Cf : convex_on (fun _ => True) f) by (apply sc_convex; [apply Lop_linear|apply Rle_refl]).
  assert (V : forall y u x, 0 <= f x - f (xs y u) + rho * dot n (fun i => gap eq_A eq_B eq_c (xs y u) y i + u i) (fun i => eq_A x i - eq_A (xs y u) i)).
  { intros a b x. apply (x_vi n eq_A eq_B eq_c rho (fun _ => True) f (eqA_affine n) Cf Hrho); [|exact Logic.I].
    pose proof (HX' n eq_A eq_B eq_c rho (fun _ => True) f (l1reg n 0 wl1) xs (x72 s dsh axes M Cd D S QNone base rho 0 wl1 ND Hne Hs HC Logic.I Hrho) a b) as H. exact H. }
  pose proof (V y u (xs y' u')) as V1. pose proof (V y' u' (xs y u)) as V2.
  set (x1 := xs y u) in *. set (x2 := xs y' u') in *.
  assert (E : dot n (fun i => gap eq_A eq_B eq_c x1 y i + u i) (fun i => eq_A x2 i - eq_A x1 i) + dot n (fun i => gap eq_A eq_B eq_c x2 y' i + u' i) (fun i => eq_A x1 i - eq_A x2 i)
    <= / 2 * nrm2 n (fun i => (y i - u i) - (y' i - u' i)) - / 2 * nrm2 n (fun i => x1 i - x2 i)).
  { unfold nrm2, dot. rewrite <- !sumn_scal, <- sumn_plus, <- sumn_minus. apply sumn_le. intros i _. unfold gap, eq_A, eq_B, eq_c.
    pose proof (Rle_0_sqr ((x1 i - x2 i) - ((y i - u i) - (y' i - u' i)))) as Q. unfold Rsqr in Q. lra. }
  nra.
Qed.
Lemma cv_shift (a : nat -> R) l : Un_cv a l -> Un_cv (fun k => a (Datatypes.S k)) l. Proof. apply cv_S. Qed.
Lemma started_run Y0 U0 k : started (run k (in_start Y0 U0)).
Proof.
  intros E. induction k as [|k IH]; intros i Hi; [reflexivity|]. cbn [in_iterate]. unfold in_iteration. cbn [iml]. destruct pln; [apply IH; exact Hi|].
  rewrite wml_none by exact E. apply IH. exact Hi.
Qed.
Lemma ustep_eq A Y U i : ustep eq_B eq_c A Y U i = U i + A i - Y i.
Proof. unfold ustep, rsdl_r, eq_B, eq_c. ring. Qed.
(** If Y and U converge then so does X, to the same array, which is an equilibrium. *)
Theorem C90_limit Y0 U0 y u : rlx <> 0 ->
  (forall i, (i < n)%nat -> Un_cv (fun k => iY (run k (in_start Y0 U0)) i) (y i)) -> (forall i, (i < n)%nat -> Un_cv (fun k => iU (run k (in_start Y0 U0)) i) (u i)) ->
  (forall i, (i < n)%nat -> Un_cv (fun k => iX (run k (in_start Y0 U0)) i) (y i)) /\ equilibrium y.
Proof.
  intros Hr HYc HUc. set (st := fun k => run k (in_start Y0 U0)) in *. set (xs := cs_xstep s dsh axes M Cd D S QNone rho base). set (x := xs y u).
  assert (Xc : forall i, (i < n)%nat -> Un_cv (fun k => iX (st (Datatypes.S k)) i) (x i)).
  { intros i Hi. assert (Q : Un_cv (fun k => nrm n (fun i => iX (st (Datatypes.S k)) i - x i)) 0).
    { unfold nrm. apply cv_sqrt_0; [intros; apply nrm2_nonneg|]. apply (squeeze_0 _ (fun k => nrm2 n (fun i => (iY (st k) i - iU (st k) i) - (y i - u i))) O).
      - intros k _. split; [apply nrm2_nonneg|]. apply (xs_close (iY (st k)) (iU (st k)) y u).
      - apply (Compact.cv_coord_nrm2 n (fun k i => iY (st k) i - iU (st k) i) (fun i => y i - u i)). intros j Hj. apply CV_minus; [apply HYc|apply HUc]; exact Hj. }
    pose proof (Compact.cv_nrm_coord n (fun k i => iX (st (Datatypes.S k)) i - x i) Q i Hi) as Z. cbv beta in Z.
    pose proof (CV_plus _ _ _ _ Z (Compact.cv_const (x i))) as Z'. rewrite Rplus_0_l in Z'. revert Z'. apply cv_ext. intros k. ring. }
  set (AX := fun k => relax_AX eq_A eq_B eq_c rlx (iX (st (Datatypes.S k))) (iY (st k))).
  assert (AXe : forall k i, AX k i = rlx * iX (st (Datatypes.S k)) i + (1 - rlx) * iY (st k) i).
  { intros k i. unfold AX, relax_AX, eq_A, eq_B, eq_c. destruct (Req_EM_T rlx 1) as [->|_]; ring. }
  assert (AXc : forall i, (i < n)%nat -> Un_cv (fun k => AX k i) (rlx * x i + (1 - rlx) * y i)).
  { intros i Hi. apply (cv_ext (fun k => rlx * iX (st (Datatypes.S k)) i + (1 - rlx) * iY (st k) i)); [intros k; symmetry; apply AXe|].
    apply CV_plus; apply CV_mult; try apply Compact.cv_const; [apply Xc|apply HYc]; exact Hi. }
  assert (Ue : forall k i, iU (st (Datatypes.S k)) i = iU (st k) i + AX k i - iY (st (Datatypes.S k)) i).
  { intros k i. apply ustep_eq. }
  assert (XY : forall i, (i < n)%nat -> x i = y i).
  { intros i Hi. assert (Z : Un_cv (fun k => iU (st (Datatypes.S k)) i) (u i + (rlx * x i + (1 - rlx) * y i) - y i)).
    { apply (cv_ext (fun k => iU (st k) i + AX k i - iY (st (Datatypes.S k)) i)); [intros k; symmetry; apply Ue|].
      apply CV_minus; [apply CV_plus; [apply HUc; exact Hi|apply AXc; exact Hi]|apply (cv_S (fun k => iY (st k) i)); apply HYc; exact Hi]. }
    pose proof (UL_sequence _ _ _ Z (cv_S _ _ (HUc i Hi))) as Q. apply (Rmult_eq_reg_l rlx); [lra|exact Hr]. }
  assert (Xc' : forall i, (i < n)%nat -> Un_cv (fun k => iX (st (Datatypes.S k)) i) (y i)) by (intros i Hi; rewrite <- XY by exact Hi; apply Xc; exact Hi).
  split; [intros i Hi; apply (cv_shift_S (fun k => iX (st k) i)); apply Xc'; exact Hi|].
  (* the weights converge *)
  assert (Latc : forall i, (i < n)%nat -> Un_cv (fun k => lat (iX (st (Datatypes.S k))) i) (lat y i)).
  { intros i Hi. unfold lat. apply Compact.cv_sumn. intros k Hk. apply CV_mult; [apply Compact.cv_const|]. apply Compact.cv_sumn. intros l Hl'. apply CV_mult; [apply Compact.cv_const|].
    apply (cv_cvabs (fun j => iX (st (Datatypes.S j)) (k * P + l)%nat)). apply Xc'. nia. }
  assert (Slfc : forall i, (i < n)%nat -> Un_cv (fun k => slf (iX (st (Datatypes.S k))) i) (slf y i)).
  { intros i Hi. destruct (below s axes Hs M i Hi) as (H1 & H2 & _). unfold slf. apply Compact.cv_sumn. intros l Hl'. apply CV_mult; [apply Compact.cv_const|].
    apply (cv_cvabs (fun j => iX (st (Datatypes.S j)) (i / P * P + l)%nat)). apply Xc'. nia. }
  set (lim := mkI y y u (lat y) (slf y)).
  assert (H0 : started lim) by (intros E i Hi; cbn [lim iml]; apply lat_none; exact E).
  assert (Wc : forall i, (i < n)%nat -> Un_cv (fun k => eff (st k) i) (eff lim i)).
  { intros i Hi. unfold eff. destruct pln eqn:Ep; [apply Compact.cv_const|]. cbn [lim iml ims]. apply CV_plus; [apply CV_plus; [apply Compact.cv_const|]|].
    - destruct Wg_cases as [(Ng & W & E)|E].
      + destruct (Rlt_dec 0 mu) as [Q|Q].
        * apply CV_mult; [apply Compact.cv_const|]. apply (cv_affine_rec smooth _ (fun k => lat (iX (st (Datatypes.S k))) i) _ Hsm); [|apply Latc; exact Hi].
          intros k. unfold st. cbn [in_iterate]. unfold in_iteration at 1. cbn [iml]. rewrite Ep. rewrite (wml_some Ng W) by assumption. reflexivity.
        * assert (Z : mu = 0) by lra. apply (cv_ext (fun _ => mu * lat y i)); [intros; rewrite Z; ring|apply Compact.cv_const].
      + apply (cv_ext (fun _ => mu * lat y i)); [|apply Compact.cv_const]. intros k. rewrite lat_none by exact E. pose proof (started_run Y0 U0 k E i Hi) as Z. fold (st k) in Z. rewrite Z. ring.
    - destruct (Rlt_dec 0 gamma) as [Q|Q].
      + apply CV_mult; [apply Compact.cv_const|]. apply (cv_affine_rec smooth _ (fun k => slf (iX (st (Datatypes.S k))) i) _ Hsm); [|apply Slfc; exact Hi].
        intros k. unfold st. cbn [in_iterate]. unfold in_iteration at 1. cbn [ims]. rewrite Ep. rewrite wms_pos by assumption. reflexivity.
      + assert (Z : gamma = 0) by lra. apply (cv_ext (fun _ => gamma * slf y i)); [intros; rewrite Z; ring|apply Compact.cv_const]. }
  assert (Wn : forall k i, (i < n)%nat -> 0 <= eff (st k) i).
  { intros k i Hi. unfold eff. pose proof (Rmult_le_pos _ _ Hl (Hw i Hi)). destruct pln; [assumption|]. destruct (C90_nonneg Y0 U0 k i Hi) as [A B]. fold (st k) in A, B.
    pose proof (Rmult_le_pos _ _ Hmu A). pose proof (Rmult_le_pos _ _ Hga B). lra. }
  assert (Wl : forall i, (i < n)%nat -> 0 <= eff lim i).
  { intros i Hi. unfold eff. pose proof (Rmult_le_pos _ _ Hl (Hw i Hi)). destruct pln; [assumption|]. cbn [lim iml ims].
    pose proof (Rmult_le_pos _ _ Hmu (lat_nonneg y i Hi)). pose proof (Rmult_le_pos _ _ Hga (slf_nonneg y i Hi)). lra. }
  (* the y step is continuous *)
  assert (Ym : forall v AXv Uv i, 0 <= v i -> cs_ystep z nonneg 1 rho v AXv Uv i = if z i then 0 else
     let q := Rmax (AXv i + Uv i - 1 / rho * v i) 0 - Rmax (- (AXv i + Uv i) - 1 / rho * v i) 0 in if nonneg then Rmax q 0 else q).
  { intros v a b i Hv. unfold cs_ystep, bpdn_ystep, clip, prox_l1. destruct (z i); [reflexivity|]. cbv zeta.
    assert (0 <= 1 / rho * v i) by (apply Rmult_le_pos; [apply Rlt_le; apply Rdiv_lt_0_compat; lra|exact Hv]).
    rewrite soft_max by assumption. destruct nonneg; cbn [andb]; [|reflexivity]. set (q := Rmax (a i + b i - 1 / rho * v i) 0 - Rmax (- (a i + b i) - 1 / rho * v i) 0).
    unfold ltb. destruct (Rlt_dec q 0); [rewrite Rmax_right by lra; reflexivity|rewrite Rmax_left by lra; reflexivity]. }
  assert (Yk : forall k, iY (st (Datatypes.S k)) = cs_ystep z nonneg 1 rho (eff (st k)) (AX k) (iU (st k))).
  { intros k. unfold st, AX. cbn [in_iterate]. unfold in_iteration. cbn [iY iX]. rewrite ystep_eff. reflexivity. }
  assert (Yl : forall i, (i < n)%nat -> cs_ystep z nonneg 1 rho (eff lim) y u i = y i).
  { intros i Hi. symmetry. apply (UL_sequence (fun k => iY (st (Datatypes.S k)) i)); [apply (cv_S (fun k => iY (st k) i)); apply HYc; exact Hi|].
    apply (cv_ext (fun k => if z i then 0 else
     let q := Rmax (AX k i + iU (st k) i - 1 / rho * eff (st k) i) 0 - Rmax (- (AX k i + iU (st k) i) - 1 / rho * eff (st k) i) 0 in if nonneg then Rmax q 0 else q)).
    { intros k. rewrite Yk. symmetry. apply Ym. apply Wn. exact Hi. }
    rewrite Ym by (apply Wl; exact Hi). cbv zeta. destruct (z i); [apply Compact.cv_const|].
    assert (AXy : Un_cv (fun k => AX k i) (y i)).
    { pose proof (AXc i Hi) as Z. rewrite XY in Z by exact Hi. replace (rlx * y i + (1 - rlx) * y i) with (y i) in Z by ring. exact Z. }
    assert (Vc : Un_cv (fun k => AX k i + iU (st k) i) (y i + u i)) by (apply CV_plus; [exact AXy|apply HUc; exact Hi]).
    assert (Tc : Un_cv (fun k => 1 / rho * eff (st k) i) (1 / rho * eff lim i)) by (apply CV_mult; [apply Compact.cv_const|apply Wc; exact Hi]).
    assert (Qc : Un_cv (fun k => Rmax (AX k i + iU (st k) i - 1 / rho * eff (st k) i) 0 - Rmax (- (AX k i + iU (st k) i) - 1 / rho * eff (st k) i) 0)
      (Rmax (y i + u i - 1 / rho * eff lim i) 0 - Rmax (- (y i + u i) - 1 / rho * eff lim i) 0)).
    { apply CV_minus; apply cv_max0; apply CV_minus; try exact Tc; [exact Vc|]. apply (CV_opp _ _ Vc). }
    destruct nonneg; [apply cv_max0; exact Qc|exact Qc]. }
  (* the limit is stationary *)
  assert (AXl : forall i, (i < n)%nat -> relax_AX eq_A eq_B eq_c rlx (xs y u) y i = y i).
  { intros i Hi. unfold relax_AX, eq_A, eq_B, eq_c. destruct (Req_EM_T rlx 1); [apply XY; exact Hi|]. fold x. rewrite XY by exact Hi. ring. }
  assert (Yst : forall i, (i < n)%nat -> iY (step lim) i = y i).
  { intros i Hi. unfold in_iteration. cbn [iY lim iU]. rewrite ystep_eff. fold lim xs. rewrite Ym by (apply Wl; exact Hi). rewrite AXl by exact Hi. refine (eq_trans _ (Yl i Hi)). rewrite Ym by (apply Wl; exact Hi). reflexivity. }
  assert (Sl : stationary lim).
  { intros i Hi. split; [apply Yst; exact Hi|]. split.
    - refine (eq_trans (ustep_eq (relax_AX eq_A eq_B eq_c rlx (xs y u) y) (iY (step lim)) u i) _). rewrite AXl, Yst by exact Hi. cbn [lim iU]. ring.
    - unfold in_iteration. cbn [iml ims]. destruct pln; [split; reflexivity|]. cbn [lim iY iU iml ims]. fold xs x. split.
      + destruct Wg_cases as [(Ng & W & E)|E]; [|rewrite wml_none by exact E; reflexivity].
        destruct (Rlt_dec 0 mu) as [Q|Q]; [|rewrite wml_mu0 by exact Q; reflexivity]. rewrite (wml_some Ng W) by assumption. rewrite (lat_ext x y i Hi XY). ring.
      + destruct (Rlt_dec 0 gamma) as [Q|Q]; [|rewrite wms_0 by exact Q; reflexivity]. rewrite wms_pos by assumption. rewrite (slf_ext x y i Hi XY). ring. }
  destruct (C90_stationary lim Hr H0 Sl) as [_ [A1 A2]]. set (y' := iY (step lim)) in *.
  assert (Ob : forall v, csc_objective s dsh axes M Cd D S QNone base 1 v y' = csc_objective s dsh axes M Cd D S QNone base 1 v y).
  { intros v. rewrite <- !(obj72 s dsh axes M Cd D S QNone base 1 v ND Hne Hs Logic.I). f_equal.
    - apply sc_ext; [apply Lop_local; assumption|]. exact Yst.
    - unfold l1reg. f_equal. apply sumn_ext. intros i Hi. rewrite Yst by exact Hi. reflexivity. }
  split.
  - intros i Hi. rewrite <- (Yst i Hi). apply A1. exact Hi.
  - intros v Hv. specialize (A2 v Hv). rewrite Ob in A2. rewrite !(obj_weights (weight_of y') (weight_of y)) in A2; [exact A2| |]; intros i Hi; apply weight_ext; try exact Hi; exact Yst.
Qed.

(** *** The documented functional.  [t] = 1 is the functional of the documentation, in which the weights depend on the argument. *)
Definition functional (t : R) (X : vec) : R :=
  let A := fun m p => X (m * size s axes + rank s axes p)%nat in
  csc_objective s dsh axes M Cd D S QNone base 1
    (fun i => lmbda * wl1 i + t * (mu * omega s axes M common hl A (i / P) (place s axes base (i mod P)) + gamma * zeta s axes hs A (i / P) (place s axes base (i mod P)))) X.
Definition Kij (i j : nat) : R :=
  mu * (common (i / P) (j / P) * hl (minus s axes (pl (i mod P)) (pl (j mod P)))) + gamma * (if Nat.eqb (j / P) (i / P) then hs (minus s axes (pl (i mod P)) (pl (j mod P))) else 0).
Lemma K_sum X i : (i < n)%nat -> mu * lat X i + gamma * slf X i = sumn n (fun j => Kij i j * Rabs (X j)).
Proof.
  intros Hi. destruct (below s axes Hs M i Hi) as (H1 & H2 & _). pose proof (P_pos' s axes Hs) as HP. rewrite sumn_flat by exact HP.
  transitivity (sumn M (fun k => sumn P (fun l => mu * (common (i / P) k * hl (minus s axes (pl (i mod P)) (pl l))) * Rabs (X (k * P + l)%nat) +
      (if Nat.eqb k (i / P) then gamma * hs (minus s axes (pl (i mod P)) (pl l)) * Rabs (X (k * P + l)%nat) else 0)))).
  - rewrite (sumn_ext M _ (fun k => mu * (common (i / P) k * sumn P (fun l => hl (minus s axes (pl (i mod P)) (pl l)) * Rabs (X (k * P + l)%nat))) +
      (if Nat.eqb k (i / P) then gamma * sumn P (fun l => hs (minus s axes (pl (i mod P)) (pl l)) * Rabs (X (k * P + l)%nat)) else 0))).
    + rewrite sumn_plus, sumn_scal. f_equal. symmetry. apply (sumn_delta M (i / P) (fun k => gamma * sumn P (fun l => hs (minus s axes (pl (i mod P)) (pl l)) * Rabs (X (k * P + l)%nat)))). exact H1.
    + intros k _. rewrite sumn_plus. f_equal.
      * rewrite <- !sumn_scal. apply sumn_ext. intros. ring.
      * destruct (Nat.eqb k (i / P)); [rewrite <- sumn_scal; apply sumn_ext; intros; ring|apply sumn_0; reflexivity].
  - apply sumn_ext. intros k Hk. apply sumn_ext. intros l Hl'. unfold Kij. rewrite div_at, mod_at by exact Hl'. destruct (Nat.eqb k (i / P)); ring.
Qed.
Lemma K_nonneg i j : (i < n)%nat -> 0 <= Kij i j.
Proof.
  intros Hi. destruct (below s axes Hs M i Hi) as (H1 & H2 & _). unfold Kij.
  assert (I : forall ax, In ax axes -> (minus s axes (pl (i mod P)) (pl (j mod P)) ax < s ax)%nat) by (apply minus_in; apply (pl_on s axes base ND Hs _ H2)).
  apply Rplus_le_le_0_compat; apply Rmult_le_pos; try assumption.
  - apply Rmult_le_pos; [apply common_nonneg|apply hl_nonneg; exact I].
  - destruct (Nat.eqb (j / P) (i / P)); [apply hs_nonneg; exact I|lra].
Qed.
Lemma hs_even (p q : index) : (forall ax, In ax axes -> (p ax < s ax)%nat) -> (forall ax, In ax axes -> (q ax < s ax)%nat) ->
  hl (minus s axes p q) = hl (minus s axes q p) -> hs (minus s axes p q) = hs (minus s axes q p).
Proof.
  intros Hp Hq E. rewrite !hs_eq. rewrite E.
  replace (forallb (fun ax => Nat.eqb (minus s axes p q ax) 0) axes) with (forallb (fun ax => Nat.eqb (minus s axes q p ax) 0) axes); [reflexivity|].
  assert (V : forall ax, In ax axes -> Nat.eqb (minus s axes q p ax) 0 = Nat.eqb (minus s axes p q ax) 0).
  { intros ax Ha. specialize (Hp ax Ha). specialize (Hq ax Ha). unfold minus. rewrite !in_existsb by exact Ha. rewrite (minus_opp (s ax) (p ax) (q ax)) by assumption.
    pose proof (Nat.mod_upper_bound (p ax + s ax - q ax) (s ax) ltac:(lia)). destruct (Nat.eqb_spec ((p ax + s ax - q ax) mod s ax) 0) as [E0|N]; [reflexivity|]. apply Nat.eqb_neq. lia. }
  revert V. generalize (minus s axes q p) as f0, (minus s axes p q) as g0. clear. intros f0 g0. induction axes as [|a L IH]; intros V; [reflexivity|]. cbn [forallb]. rewrite (V a) by (left; reflexivity). f_equal. apply IH. intros; apply V; right; assumption.
Qed.
Lemma K_sym i j : (i < n)%nat -> (j < n)%nat -> (forall r, (odd_up w = 2 * r + 1)%nat -> palindrome r win) -> Kij i j = Kij j i.
Proof.
  intros Hi Hj Pw. destruct (below s axes Hs M i Hi) as (I1 & I2 & _). destruct (below s axes Hs M j Hj) as (J1 & J2 & _).
  destruct (windows_weighting s axes w win hl hs ND Hne Hwin Hh) as (r & Er & HWt).
  destruct (pl_on s axes base ND Hs _ I2) as [Ip _]. destruct (pl_on s axes base ND Hs _ J2) as [Jp _].
  assert (L : forall ax, In ax axes -> (2 * r + 1 <= s ax)%nat).
  { intros ax Ha. destruct (C90_windows s axes w win ND Hne Hwin) as [Nn _]. destruct (le_lt_dec (2 * r + 1) (s ax)) as [|Lt]; [assumption|]. exfalso.
    assert (windows s axes w win = None) by (apply Nn; exists ax; rewrite Er; split; [exact Ha|exact Lt]). congruence. }
  pose proof (weighting_even s axes r win hl (pl (i mod P)) (pl (j mod P)) Hne L HWt (Pw r Er) Ip Jp) as Ev.
  pose proof (hs_even (pl (i mod P)) (pl (j mod P)) Ip Jp Ev) as Es. unfold Kij. rewrite Ev, Es. rewrite (Nat.eqb_sym (j / P)).
  replace (common (j / P) (i / P)) with (common (i / P) (j / P)); [reflexivity|]. unfold common. destruct Wg as [[Ng W]|]; [apply share_sym|reflexivity].
Qed.
Lemma functional_val t X : 0 <= t -> functional t X = csc_objective s dsh axes M Cd D S QNone base 0 wl1 X + sumn n (fun i => lmbda * wl1 i * Rabs (X i)) + t * sumn n (fun i => sumn n (fun j => Kij i j * Rabs (X j)) * Rabs (X i)).
Proof.
  intros Ht. unfold functional, csc_objective. cbv zeta. rewrite Rmult_0_l, Rplus_0_r, Rmult_1_l.
  match goal with |- ?a + ?c = _ + ?d + ?e => enough (K : c = d + e) by (rewrite K; ring) end. rewrite <- sumn_scal, <- sumn_plus. apply sumn_ext. intros i Hi.
  rewrite <- K_sum by exact Hi.
  replace (mu * omega s axes M common hl (fun (m : nat) (p : index) => X (m * P + rank s axes p)%nat) (i / P) (pl (i mod P))) with (mu * lat X i) by (f_equal; symmetry; apply (omega_lat X i Hi)).
  replace (gamma * zeta s axes hs (fun (m : nat) (p : index) => X (m * P + rank s axes p)%nat) (i / P) (pl (i mod P))) with (gamma * slf X i) by (f_equal; symmetry; apply (zeta_slf X i Hi)).
  rewrite Rabs_mult. rewrite (Rabs_pos_eq (lmbda * wl1 i + t * (mu * lat X i + gamma * slf X i))); [ring|].
  pose proof (Rmult_le_pos _ _ Hl (Hw i Hi)). pose proof (Rmult_le_pos _ _ Hmu (lat_nonneg X i Hi)). pose proof (Rmult_le_pos _ _ Hga (slf_nonneg X i Hi)).
  pose proof (Rmult_le_pos t (mu * lat X i + gamma * slf X i) Ht ltac:(lra)). lra.
Qed.
Lemma weighted_val X Y : csc_objective s dsh axes M Cd D S QNone base 1 (weight_of X) Y = csc_objective s dsh axes M Cd D S QNone base 0 wl1 Y + sumn n (fun i => lmbda * wl1 i * Rabs (Y i)) + sumn n (fun i => sumn n (fun j => Kij i j * Rabs (X j)) * Rabs (Y i)).
Proof.
  unfold csc_objective. cbv zeta. rewrite Rmult_0_l, Rplus_0_r, Rmult_1_l.
  match goal with |- ?a + ?c = _ + ?d + ?e => enough (K : c = d + e) by (rewrite K; ring) end. rewrite <- sumn_plus. apply sumn_ext. intros i Hi.
  rewrite <- K_sum by exact Hi. pose proof (weight_nonneg X i Hi) as N. rewrite weight_lat in N by exact Hi. rewrite weight_lat by exact Hi. rewrite Rabs_mult, Rabs_pos_eq by exact N. ring.
Qed.
(** For a window which is symmetric, an equilibrium is a stationary point, to first order, of the functional with half of the
    inhibition: no allowed point lowers it by more than a multiple of the squared distance. *)
Theorem C90_first_order : (forall r, (odd_up w = 2 * r + 1)%nat -> palindrome r win) ->
  exists c, 0 <= c /\ forall x u, equilibrium x -> allowed n z nonneg u -> functional (/ 2) x <= functional (/ 2) u + c * nrm2 n (fun i => x i - u i).
Proof.
  intros Pw. set (c := sumn n (fun i => sumn n (fun j => Kij i j))). assert (Hc : 0 <= c) by (apply sumn_nonneg; intros; apply sumn_nonneg; intros; apply K_nonneg; assumption).
  exists c. split; [exact Hc|]. intros x u [_ Hx] Hu. specialize (Hx u Hu). rewrite !weighted_val in Hx. rewrite !functional_val by lra.
  set (F := csc_objective s dsh axes M Cd D S QNone base 0 wl1) in *. set (q := fun a b : vec => sumn n (fun i => sumn n (fun j => Kij i j * Rabs (a j)) * Rabs (b i))).
  change (sumn n (fun i => sumn n (fun j => Kij i j * Rabs (x j)) * Rabs (x i))) with (q x x) in *. change (sumn n (fun i => sumn n (fun j => Kij i j * Rabs (u j)) * Rabs (u i))) with (q u u) in *.
  change (sumn n (fun i => sumn n (fun j => Kij i j * Rabs (x j)) * Rabs (u i))) with (q x u) in *.
  assert (Qs : q x u = q u x).
  { unfold q. transitivity (sumn n (fun i => sumn n (fun j => Kij i j * Rabs (x j) * Rabs (u i)))); [apply sumn_ext; intros; rewrite <- sumn_scal_r; reflexivity|].
    rewrite sumn_swap. apply sumn_ext. intros i Hi. rewrite <- sumn_scal_r. apply sumn_ext. intros j Hj. rewrite (K_sym i j) by assumption. ring. }
  assert (B : - (c * nrm2 n (fun i => x i - u i)) <= q u u - q x u - q u x + q x x).
  { assert (Eq : q u u - q x u - q u x + q x x = sumn n (fun i => sumn n (fun j => Kij i j * ((Rabs (u j) - Rabs (x j)) * (Rabs (u i) - Rabs (x i)))))).
    { unfold q. rewrite <- !sumn_minus, <- sumn_plus. apply sumn_ext. intros i _. rewrite <- !sumn_scal_r, <- !sumn_minus, <- sumn_plus. apply sumn_ext. intros. ring. }
    rewrite Eq. unfold c. rewrite <- sumn_scal_r, <- sumn_opp. apply sumn_le. intros i Hi. rewrite <- sumn_scal_r, <- sumn_opp. apply sumn_le. intros j Hj.
    pose proof (K_nonneg i j Hi) as Kn. set (d := fun i => x i - u i).
    assert (Ai : forall k, (k < n)%nat -> (Rabs (u k) - Rabs (x k)) * (Rabs (u k) - Rabs (x k)) <= nrm2 n d).
    { intros k Hk. eapply Rle_trans; [|apply (AdmmLimit.coord_sq n d k Hk)]. pose proof (Rabs_triang_inv2 (u k) (x k)) as T. unfold d.
      apply Rsqr_le_abs_1 in T. unfold Rsqr in T. lra. }
    pose proof (Ai i Hi) as A1. pose proof (Ai j Hj) as A2. set (a := Rabs (u i) - Rabs (x i)) in *. set (b := Rabs (u j) - Rabs (x j)) in *.
    assert (- nrm2 n d <= b * a) by (pose proof (Rle_0_sqr (a + b)) as Q; unfold Rsqr in Q; lra).
    replace (- (Kij i j * nrm2 n d)) with (Kij i j * (- nrm2 n d)) by ring. apply Rmult_le_compat_l; assumption. }
  pose proof (nrm2_nonneg n (fun i => x i - u i)) as Nn. pose proof (Rmult_le_pos _ _ Hc Nn). lra.
Qed.
End C90.
Print Assumptions C90_weights.
Print Assumptions C90_nonneg.
Print Assumptions C90_plain.
Print Assumptions C90_stationary.
Print Assumptions C90_fixed.
Print Assumptions C90_limit.
Print Assumptions C90_first_order.

(** *** The weights are not those of the documented functional: a stationary state of the solver which is not even a stationary
    point to first order of the functional of the documentation (one position, two filters of one group, both constant 1, S = 4). *)
Definition x_s : nat -> nat := fun _ => 1%nat.
Definition x_hl : index -> R := centred x_s [O] 1 (fun _ => 1).
Definition x_hs : index -> R := without_origin [O] x_hl.
Definition x_W : option (nat * (nat -> nat -> R)) := Some (1%nat, fun _ _ => 1).
Definition x_D : nat -> nat -> index -> R := fun _ _ _ => 1.
Definition x_S : nat -> index -> R := fun _ _ => 4.
Lemma x_windows : windows x_s [O] 1 (fun _ => 1) = Some (x_hl, x_hs).
Proof. reflexivity. Qed.
Lemma x_hl0 p : p O = O -> x_hl p = 1.
Proof.
  intros Hp. destruct (windows_weighting x_s [O] 1 (fun _ => 1) x_hl x_hs) as (r & Er & HWt); [repeat constructor; intros []|discriminate|intros; lra|exact x_windows|].
  assert (r = O) by (cbn in Er; lia). subst r. specialize (HWt p). assert (I : forall ax, In ax [O] -> (p ax < x_s ax)%nat) by (intros ax [<-|[]]; rewrite Hp; unfold x_s; lia).
  specialize (HWt I). cbn [forallb within] in HWt. rewrite Hp in HWt. cbn in HWt. destruct HWt as [_ E]. change (x_hl p * 1 = 1 * 1) in E. lra.
Qed.
Lemma x_hs0 p : p O = O -> x_hs p = 0.
Proof. intros Hp. unfold x_hs, without_origin. cbn [forallb]. rewrite Hp. reflexivity. Qed.
Lemma x_fit X : csc_objective x_s x_s [O] 2 1 x_D x_S QNone (fun _ => O) 0 (fun _ => 1) X = / 2 * ((X O + X 1%nat - 4) * (X O + X 1%nat - 4)).
Proof. lazy -[Rplus Rmult Rminus Ropp Rinv Rabs IZR]. lra. Qed.
Definition x_b : index := fun _ => O.
Definition x_f (t : R) : vec -> R := functional x_s x_s [O] 2 1 x_D x_S x_b 1 1 0 (fun _ => 1) x_W x_hl x_hs t.
Lemma x_nd : NoDup [O]. Proof. repeat constructor; intros []. Qed.
Lemma x_K i j : (i < 2)%nat -> (j < 2)%nat -> Kij x_s [O] x_b 1 0 x_W x_hl x_hs i j = if Nat.eqb i j then 0 else 1.
Proof.
  intros Hi Hj. unfold Kij. change (size x_s [O]) with 1%nat. rewrite !Nat.div_1_r.
  assert (H0 : minus x_s [O] (place x_s [O] x_b (i mod 1)) (place x_s [O] x_b (j mod 1)) O = O) by (rewrite !Nat.mod_1_r; reflexivity).
  rewrite (x_hl0 _ H0), (x_hs0 _ H0). unfold common, x_W, share. destruct (Nat.eqb i j); destruct (Nat.eqb j i); cbn [sumn]; lra.
Qed.
Lemma x_bin : match x_W with None => True | Some (Ng, W) => binary Ng W end.
Proof. intros g m _. right. reflexivity. Qed.
Lemma x_pos : forall ax, In ax [O] -> (0 < x_s ax)%nat. Proof. intros; unfold x_s; lia. Qed.
Lemma x_fval t X : 0 <= t -> x_f t X = / 2 * ((X O + X 1%nat - 4) * (X O + X 1%nat - 4)) + Rabs (X O) + Rabs (X 1%nat) + 2 * t * Rabs (X O) * Rabs (X 1%nat).
Proof.
  intros Ht. unfold x_f. rewrite (functional_val x_s x_s [O] 2 1 x_D x_S x_b 1 1 0 (fun _ => 1) x_W 1 (fun _ => 1) x_hl x_hs); try (intros; lra); try exact x_nd; try exact x_pos; try exact x_bin; try exact x_windows; try discriminate; try lia.
  change (csc_objective x_s x_s [O] 2 1 x_D x_S QNone x_b 0 (fun _ => 1) X) with (csc_objective x_s x_s [O] 2 1 x_D x_S QNone (fun _ => O) 0 (fun _ => 1) X). rewrite x_fit.
  change (2 * size x_s [O])%nat with 2%nat. cbn [sumn]. rewrite !x_K by lia. cbn [Nat.eqb]. ring.
Qed.
Lemma x_equilibrium : equilibrium x_s x_s [O] 2 1 x_D x_S x_b (fun _ => false) false 1 1 0 (fun _ => 1) x_W x_hl x_hs (fun _ => 1).
Proof.
  split; [intros i _; split; discriminate|]. intros u _.
  rewrite !(weighted_val x_s x_s [O] 2 1 x_D x_S x_b 1 1 0 (fun _ => 1) x_W 1 (fun _ => 1) x_hl x_hs); try (intros; lra); try exact x_nd; try exact x_pos; try exact x_bin; try exact x_windows; try discriminate; try lia.
  change (csc_objective x_s x_s [O] 2 1 x_D x_S QNone x_b 0 (fun _ => 1)) with (csc_objective x_s x_s [O] 2 1 x_D x_S QNone (fun _ => O) 0 (fun _ => 1)). rewrite !x_fit.
  change (2 * size x_s [O])%nat with 2%nat. cbn [sumn]. rewrite !x_K by lia. cbn [Nat.eqb]. rewrite !Rabs_R1.
  pose proof (Rle_abs (u O)). pose proof (Rle_abs (u 1%nat)). pose proof (Rle_0_sqr (u O + u 1%nat - 2)) as Q. unfold Rsqr in Q. lra.
Qed.
Theorem C90_functional_refuted :
  (exists U wml wms, stationary x_s x_s [O] 2 1 x_D x_S 1 1 x_b (fun _ => false) false 1 1 0 0 (fun _ => 1) x_W x_hl x_hs (mkI (fun _ => 1) (fun _ => 1) U wml wms)) /\
  forall c, exists u, x_f 1 u + c * nrm2 2 (fun i => 1 - u i) < x_f 1 (fun _ => 1).
Proof.
  split.
  - destruct (C90_fixed x_s x_s [O] 2 1 x_D x_S 1 1 x_b (fun _ => false) false 1 1 0 0 (fun _ => 1) x_W 1 (fun _ => 1) x_hl x_hs) with (X := fun _ : nat => 1) as (U & wml & wms & _ & H);
      try (intros; lra); try exact x_nd; try exact x_pos; try exact x_bin; try exact x_windows; try discriminate; try lia; [exact x_equilibrium|]. exists U, wml, wms. exact H.
  - intros c. pose (e := / (Rabs c + 5)). pose proof (Rabs_pos c) as Pc. assert (He : 0 < e) by (apply Rinv_0_lt_compat; lra).
    assert (He1 : e * (Rabs c + 5) = 1) by (apply Rinv_l; lra). assert (Hc : e * c <= e * Rabs c) by (apply Rmult_le_compat_l; [lra|apply Rle_abs]). assert (Hb : e * Rabs c >= 0) by nra.
    exists (fun _ => 1 - e). rewrite !x_fval by lra. rewrite Rabs_R1, (Rabs_pos_eq (1 - e)) by lra. unfold nrm2, dot. cbn [sumn]. nra.
Qed.
Print Assumptions C90_functional_refuted.
(** The same point for the functional with half of the inhibition: first order stationary, by C90_first_order. *)
Example C90_half : exists c, 0 <= c /\ forall u, x_f (/ 2) (fun _ => 1) <= x_f (/ 2) u + c * nrm2 2 (fun i => 1 - u i).
Proof.
  destruct (C90_first_order x_s x_s [O] 2 1 x_D x_S x_b (fun _ => false) false 1 1 0 (fun _ => 1) x_W 1 (fun _ => 1) x_hl x_hs) as (c & Hc & H);
    try (intros; lra); try exact x_nd; try exact x_pos; try exact x_bin; try exact x_windows; try discriminate; try lia; [intros r _ j _; reflexivity|].
  exists c. split; [exact Hc|]. intros u. apply (H (fun _ => 1) u x_equilibrium). intros i _. split; discriminate.
Qed.
(** Memberships between 0 and 1 (the documentation calls the entries of Wg the strength of the membership): the subtraction of
    np.sum(Wg, axis=0) removes more than the own activity, so that a filter excites itself: its weight becomes negative. *)
Theorem C90_groups_refuted (m : R) (X : vec) : 0 < m < 1 -> X O <> 0 -> new_wml x_s [O] 1 x_b 1 0 (Some (1%nat, fun _ _ => m)) x_hl X (fun _ => 0) O < 0.
Proof.
  intros Hm HX. unfold new_wml. destruct (Rlt_dec 0 1) as [_|N]; [|lra]. rewrite Rmult_0_r, Rplus_0_l, Rminus_0_r, Rmult_1_l.
  assert (E : cs_flat x_s [O] x_b (lateral 1 1 (fun _ _ : nat => m) (spread x_s [O] x_hl X)) O = m * (m - 1) * Rabs (X O)).
  { refine (eq_trans (flat_at x_s [O] x_b (lateral 1 1 (fun _ _ : nat => m) (spread x_s [O] x_hl X)) 0 0 ltac:(cbn; lia)) _). unfold lateral. cbn [sumn].
    rewrite (spread_mat x_s [O] x_b x_nd) by (try discriminate; try exact x_pos; cbn; lia). change (size x_s [O]) with 1%nat. cbn [sumn Nat.mul Nat.add]. rewrite x_hl0 by reflexivity. ring. }
  rewrite E. pose proof (Rabs_pos_lt _ HX). assert (m * (1 - m) > 0) by nra. nra.
Qed.
Print Assumptions C90_groups_refuted.
(** A periodic window (the default of scipy.signal.get_window) such as 0, 1, 1 is not a palindrome: the activity one sample before
    a coefficient inhibits it, the activity one sample after it does not. *)
Example C90_one_sided hl hs : windows (fun _ => 3%nat) [O] 3 (fun j => match j with O => 0 | _ => 1 end) = Some (hl, hs) ->
  hl (fun _ => 1%nat) = 1 /\ hl (fun _ => 2%nat) = 0.
Proof.
  intros H. destruct (windows_weighting (fun _ => 3%nat) [O] 3 (fun j => match j with O => 0 | _ => 1 end) hl hs x_nd) as (r & Er & HWt); [discriminate|intros [|j]; lra|exact H|].
  assert (r = 1%nat) by (cbn in Er; lia). subst r.
  pose proof (HWt (fun _ => 1%nat) ltac:(intros; cbn; lia)) as A. pose proof (HWt (fun _ => 2%nat) ltac:(intros; cbn; lia)) as B. cbn in A, B. destruct A as [_ A]. destruct B as [_ B]. split; lra.
Qed.
