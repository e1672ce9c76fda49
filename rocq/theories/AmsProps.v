(** C78: mask simulation by additional impulse filters (AddMaskSim). *)
Require Import List Arith Reals Bool Lia Lra FunctionalExtensionality.
Require Import Verif.RVec Verif.ProxModel Verif.FftModel Verif.FftProofs Verif.FftInv Verif.CscModel Verif.CscSpec Verif.CscProofs Verif.CscProps Verif.CscIterModel Verif.CscIterProofs Verif.CscIterProps.
Require Import Verif.AdmmModel Verif.AdmmSpec Verif.AdmmProofs Verif.AdmmConv Verif.AdmmProps Verif.Compact Verif.AdmmLimit Verif.StepsModel Verif.StepsSpec Verif.StepsProofs Verif.LimitProofs Verif.Lagrange Verif.LimitTwo.
Require Import Verif.CscTwoProps Verif.LimitProps Verif.AmsModel Verif.AmsProofs.
Import ListNotations.
Local Open Scope R_scope.
Local Notation vec := (nat -> R).

(** Broadcasting: the value of an array of shape [wsh] at an index of an array with which it is broadcast. *)
Definition bcast (wsh : nat -> nat) (W : index -> R) (i : index) : R := W (fun ax => if Nat.eqb (wsh ax) 1 then 0%nat else i ax).
(** The zero-one mask of the samples at which [W] is not zero: channel c of the signal at position p, where the impulse maps have
    the channel on axis [aM]. *)
Definition nonzero (w : R) : R := if Req_EM_T w 0 then 0 else 1.
Definition intended (wsh : nat -> nat) (W : index -> R) (aM : nat) : nat -> index -> R := fun c p => nonzero (bcast wsh W (upd p aM c)).

Section C78.
Variables (s dsh : nat -> nat) (axes : list nat) (aC aK aM : nat) (M Cd : nat) (D : nat -> nat -> index -> R) (S : nat -> index -> R) (base : index).
Variables (wsh : nat -> nat) (W : index -> R).
Variables (rho rlx lmbda : R) (z : nat -> bool) (nonneg : bool) (wl1 : vec).
Hypothesis ND : NoDup axes.
Hypothesis Hne : axes <> [].
Hypothesis Hs : forall ax, In ax axes -> (0 < s ax)%nat.
Hypothesis Hd : forall ax, In ax axes -> (0 < dsh ax)%nat.
Hypothesis HC : (0 < Cd)%nat.
Hypothesis Hrho : 0 < rho.
Hypothesis Hrlx : 0 < rlx < 2.
Hypothesis Hl : 0 <= lmbda.
Notation P := (size s axes).
Notation n := (M * P)%nat.
Notation N := ((M + Cd) * P)%nat.
Hypothesis Hw : forall i, (i < n)%nat -> 0 <= wl1 i.
Notation run := (ams_iterate s dsh axes aC aK aM M Cd D S base wsh W rho rlx z nonneg lmbda wl1).
Notation all := (axes ++ [aC; aK; aM]).
(** The masked problem solved by ConvBPDNMaskDcpl, with mask [m]. *)
Notation FM m := (fun x => masked_fit s dsh axes M Cd D S m base x + lmbda * wl1norm n wl1 x).
(** The mask which the implementation applies. *)
Definition applied : nat -> index -> R := fun c p => if where_W wsh W all (upd p aM c) then 1 else 0.

Definition nnE (i : nat) : bool := (nonneg && Nat.ltb i n)%bool.
Definition zE (i : nat) : bool := if Nat.ltb i n then z i else ams_hit s axes aC aK aM base wsh W (i - n).
Definition wE (i : nat) : R := if Nat.ltb i n then wl1 i else 0.
Notation FE := (csc_objective s dsh axes (M + Cd) Cd (ext_dict axes M D) S QNone base lmbda wE).
Lemma P_pos78 : (0 < P)%nat. Proof. apply size_pos. exact Hs. Qed.
Lemma ystep78 : ams_ystep s axes aC aK aM M base wsh W z nonneg lmbda rho wl1 = p_ystep nnE zE lmbda rho wE.
Proof.
  extensionality ax. extensionality u. extensionality i. unfold ams_ystep, p_ystep, cs_ystep, bpdn_ystep, clip, prox_l1, nnE, zE, wE. destruct (Nat.ltb_spec i n) as [Hi|Hi].
  - rewrite Bool.andb_true_r. reflexivity.
  - rewrite Bool.andb_false_r. destruct (ams_hit _ _ _ _ _ _ _ _ _); [reflexivity|]. cbn [andb]. rewrite Rmult_0_r, Rminus_0_r. rewrite Rmax_left by (pose proof (Rabs_pos (ax i + u i)); lra).
    unfold sgn, Rabs, ltb. destruct (Rcase_abs (ax i + u i)) as [H|H]; destruct (Rlt_dec 0 (ax i + u i)); try destruct (Rlt_dec (ax i + u i) 0); lra.
Qed.
(** The maps of the impulse filters absorb the residual where the mask allows. *)
Notation res x c k := (synth s dsh axes M D (coefs s axes x) c (place s axes base k) - S c (place s axes base k)).
Lemma place_inr k : (k < P)%nat -> inr s axes (place s axes base k).
Proof. intros Hk. destruct (place_slice s axes ND Hs base k Hk) as [H _]. exact H. Qed.
Lemma FE_eq x : FE x = / 2 * sumn Cd (fun c => sumn P (fun k => (res x c k + x (n + (c * P + k))%nat) * (res x c k + x (n + (c * P + k))%nat))) + lmbda * wl1norm n wl1 x.
Proof.
  unfold csc_objective, datafit. cbn [quad_term]. rewrite Rplus_0_r. f_equal.
  - f_equal. apply sumn_ext. intros c Hc. unfold sqn. rewrite <- sum_place by exact Hs. apply sumn_ext. intros k Hk.
    rewrite synth_ext_dict by (try assumption; apply place_inr; exact Hk). rewrite rank_place by assumption.
    replace ((M + c) * P + k)%nat with (n + (c * P + k))%nat by nia. unfold coefs. ring.
  - f_equal. unfold wl1norm. replace N with (n + Cd * P)%nat by nia. rewrite sumn_split. rewrite (sumn_0 (Cd * P)).
    + rewrite Rplus_0_r. apply sumn_ext. intros i Hi. unfold wE. apply Nat.ltb_lt in Hi. rewrite Hi. reflexivity.
    + intros i Hi. unfold wE. replace (Nat.ltb (n + i) n) with false by (symmetry; apply Nat.ltb_ge; lia). rewrite Rmult_0_l. apply Rabs_R0.
Qed.
Lemma MF_eq m x : masked_fit s dsh axes M Cd D S m base x = / 2 * sumn Cd (fun c => sumn P (fun k => (m c (place s axes base k) * res x c k) * (m c (place s axes base k) * res x c k))).
Proof. unfold masked_fit. f_equal. apply sumn_ext. intros c Hc. unfold sqn. rewrite <- sum_place by exact Hs. reflexivity. Qed.
Lemma hit_at c k : (k < P)%nat -> ams_hit s axes aC aK aM base wsh W (c * P + k) = where_W wsh W all (upd (place s axes base k) aM c).
Proof. intros Hk. unfold ams_hit, ams_index. rewrite div_at, mod_at by exact Hk. reflexivity. Qed.
Lemma FE_ge x : pset N nnE zE x -> FM applied x <= FE x.
Proof.
  intros Hx. rewrite FE_eq, MF_eq. apply Rplus_le_compat_r. apply Rmult_le_compat_l; [lra|]. apply sumn_le. intros c Hc. apply sumn_le. intros k Hk.
  assert (B : (n + (c * P + k) < N)%nat) by (pose proof P_pos78; nia). destruct (Hx _ B) as [_ Z]. unfold zE in Z.
  replace (Nat.ltb (n + (c * P + k)) n) with false in Z by (symmetry; apply Nat.ltb_ge; lia). replace (n + (c * P + k) - n)%nat with (c * P + k)%nat in Z by lia.
  rewrite hit_at in Z by exact Hk. unfold applied. destruct (where_W _ _ _ _).
  - rewrite (Z eq_refl). apply Req_le. ring.
  - rewrite Rmult_0_l, Rmult_0_l. apply Rle_0_sqr.
Qed.
(** The best maps for given coefficients. *)
Definition fill (x : vec) : vec := fun i => if Nat.ltb i n then x i else
  let r := (i - n)%nat in if ams_hit s axes aC aK aM base wsh W r then 0 else - res x (r / P)%nat (r mod P)%nat.
Lemma fill_lt x i : (i < n)%nat -> fill x i = x i.
Proof. intros H. unfold fill. apply Nat.ltb_lt in H. rewrite H. reflexivity. Qed.
Lemma coefs_same x y : (forall i, (i < n)%nat -> x i = y i) -> forall c k, (k < P)%nat -> res x c k = res y c k.
Proof.
  intros E c k Hk. f_equal. apply (synth_ext s dsh axes M D base ND Hs); [|apply (place_slice s axes ND Hs base k Hk)].
  intros m p Hm [Hp _]. unfold coefs. apply E. pose proof (rank_lt s axes p Hp). nia.
Qed.
Lemma wl1_same x y : (forall i, (i < n)%nat -> x i = y i) -> wl1norm n wl1 x = wl1norm n wl1 y.
Proof. intros E. apply sumn_ext. intros i Hi. rewrite E by exact Hi. reflexivity. Qed.
Lemma FE_fill x : FE (fill x) = FM applied x.
Proof.
  rewrite FE_eq, MF_eq. f_equal; [|f_equal; apply wl1_same; apply fill_lt]. f_equal. apply sumn_ext. intros c Hc. apply sumn_ext. intros k Hk.
  rewrite (coefs_same (fill x) x (fill_lt x)) by exact Hk.
  replace (fill x (n + (c * P + k))%nat) with (if where_W wsh W all (upd (place s axes base k) aM c) then 0 else - res x c k).
  - unfold applied. destruct (where_W _ _ _ _); ring.
  - unfold fill. replace (Nat.ltb (n + (c * P + k)) n) with false by (symmetry; apply Nat.ltb_ge; lia). replace (n + (c * P + k) - n)%nat with (c * P + k)%nat by lia.
    rewrite hit_at by exact Hk. rewrite div_at, mod_at by exact Hk. reflexivity.
Qed.
Lemma fill_in x : allowed n z nonneg x -> pset N nnE zE (fill x).
Proof.
  intros Hx i Hi. unfold nnE, zE, fill. destruct (Nat.ltb_spec i n) as [H|H].
  - rewrite Bool.andb_true_r. apply Hx. exact H.
  - rewrite Bool.andb_false_r. split; [discriminate|]. intros E. cbv zeta. rewrite E. reflexivity.
Qed.
Lemma in_allowed x : pset N nnE zE x -> allowed n z nonneg x.
Proof.
  intros Hx i Hi. assert (B : (i < N)%nat) by nia. specialize (Hx i B). unfold nnE, zE in Hx. replace (Nat.ltb i n) with true in Hx by (symmetry; apply Nat.ltb_lt; exact Hi).
  rewrite Bool.andb_true_r in Hx. exact Hx.
Qed.

(** Whatever the mask, the coefficients computed converge to a minimiser of the masked problem with the mask which is applied. *)
Theorem C78_converges st : (exists p, argmin (allowed n z nonneg) (FM applied) p) ->
  exists p, argmin (allowed n z nonneg) (FM applied) p /\ tends_to n (fun k => run k st) p.
Proof.
  intros [p0 [H1 H2]]. destruct (Lop_adjoint s dsh axes (M + Cd) Cd (ext_dict axes M D) QNone base ND Hne Hs) as [LT HA].
  assert (Wn : forall i, (i < N)%nat -> 0 <= wE i) by (intros i _; unfold wE; destruct (Nat.ltb_spec i n); [apply Hw; assumption|lra]).
  destruct (sc_iterates N ((Cd + nG axes (M + Cd) QNone) * P) (Lop s dsh axes (M + Cd) Cd (ext_dict axes M D) QNone base) LT (sv s axes Cd S base) (q_mu QNone)
    (Lop_linear s dsh axes (M + Cd) Cd (ext_dict axes M D) QNone base) HA (Lop_local s dsh axes (M + Cd) Cd (ext_dict axes M D) QNone base ND Hne Hs) (pset N nnE zE) (l1reg N lmbda wE) rlx rho
    (cs_xstep s dsh axes (M + Cd) Cd (ext_dict axes M D) S QNone rho base) (p_ystep nnE zE lmbda rho wE) (mu_nonneg72 s axes (M + Cd) QNone Logic.I) Hrho (l1reg_convex _ N lmbda wE Hl (pset_convex N nnE zE))
    (x72 s dsh axes (M + Cd) Cd (ext_dict axes M D) S QNone base rho lmbda wE ND Hne Hs HC Logic.I Hrho)
    (fun ax u => p_y N nnE zE lmbda rho wE ax u Hl Hrho Wn) (pset_closed N nnE zE) (lip_l1reg N lmbda wE) st Hrlx) as (p & [P1 P2] & P3).
  { exists (fill p0). split; [apply fill_in; exact H1|]. intros x Hx. rewrite !obj72 by (try assumption; exact Logic.I). rewrite FE_fill.
    apply Rle_trans with (FM applied x); [apply H2; apply in_allowed; exact Hx|apply FE_ge; exact Hx]. }
  exists p. split; [split; [apply in_allowed; exact P1|]|].
  - intros x Hx. specialize (P2 (fill x) (fill_in x Hx)). cbv beta in P2. rewrite !obj72 in P2 by (try assumption; exact Logic.I). rewrite FE_fill in P2.
    apply Rle_trans with (FE p); [apply FE_ge; exact P1|exact P2].
  - intros i Hi. assert (B : (i < N)%nat) by nia. specialize (P3 i B). unfold ams_iterate. rewrite ystep78. exact P3.
Qed.
(** The mask which is applied is the intended one at the samples whose coordinate is zero on each axis broadcast, and no sample
    is masked in otherwise. *)
Theorem C78_applied ysh c p : (forall ax, In ax all -> wsh ax = 1%nat \/ wsh ax = ysh ax) -> (forall ax, In ax all -> (upd p aM c ax < ysh ax)%nat) ->
  (forall i j, (forall ax, In ax all -> i ax = j ax) -> W i = W j) ->
  ((forall ax, In ax all -> wsh ax = 1%nat -> upd p aM c ax = 0%nat) -> applied c p = intended wsh W aM c p) /\
  ((exists ax, In ax all /\ wsh ax = 1%nat /\ upd p aM c ax <> 0%nat) -> applied c p = 0).
Proof.
  intros Hb Hr Wx. split.
  - intros Z. unfold applied, intended, where_W, bcast, nonzero. replace (forallb (fun ax => Nat.ltb (upd p aM c ax) (wsh ax)) all) with true.
    + rewrite (Wx (upd p aM c) (fun ax => if Nat.eqb (wsh ax) 1 then 0%nat else upd p aM c ax)).
      * cbn [andb]. destruct (Req_EM_T _ 0); reflexivity.
      * intros ax Ha. destruct (Nat.eqb_spec (wsh ax) 1) as [E|E]; [apply Z; assumption|reflexivity].
    + symmetry. apply forallb_forall. intros ax Ha. apply Nat.ltb_lt. destruct (Hb ax Ha) as [E|E]; rewrite E; [rewrite (Z ax Ha E); lia|apply Hr; exact Ha].
  - intros (ax & Ha & E & Nz). unfold applied, where_W. replace (forallb (fun b => Nat.ltb (upd p aM c b) (wsh b)) all) with false; [reflexivity|].
    symmetry. destruct (forallb _ all) eqn:F; [|reflexivity]. rewrite forallb_forall in F. specialize (F ax Ha). apply Nat.ltb_lt in F. lia.
Qed.
(** A mask with the full shape of the impulse maps: the solution of the masked problem is computed. *)
Theorem C78_full st ysh : (forall ax, In ax all -> wsh ax = ysh ax) ->
  (forall c k ax, (c < Cd)%nat -> (k < P)%nat -> In ax all -> (upd (place s axes base k) aM c ax < ysh ax)%nat) ->
  (forall i j, (forall ax, In ax all -> i ax = j ax) -> W i = W j) ->
  0 < lmbda -> (forall i, (i < n)%nat -> 0 < wl1 i) ->
  exists p, argmin (allowed n z nonneg) (FM (intended wsh W aM)) p /\ tends_to n (fun k => run k st) p.
Proof.
  intros Hsh Hr Wx Hl0 Hw0.
  assert (EQ : forall x, FM applied x = FM (intended wsh W aM) x).
  { intros x. f_equal. rewrite !MF_eq. f_equal. apply sumn_ext. intros c Hc. apply sumn_ext. intros k Hk.
    destruct (C78_applied ysh c (place s axes base k)) as [A _]; [intros ax Ha; right; apply Hsh; exact Ha|intros ax Ha; apply Hr; assumption|exact Wx|].
    rewrite A; [reflexivity|]. intros ax Ha E. pose proof (Hsh ax Ha) as E1. specialize (Hr c k ax Hc Hk Ha). lia. }
  destruct (C78_converges st) as (p & [P1 P2] & P3).
  { apply C74_mask_exists; assumption. }
  exists p. split; [|exact P3]. split; [exact P1|]. intros x Hx. rewrite <- !EQ. apply P2. exact Hx.
Qed.
(** On a slice with a nonzero coordinate on a channel or signal axis along which the mask has size one, nothing constrains the
    impulse maps: the coefficients converge to zero whatever the signal, the dictionary and the mask are. *)
Theorem C78_uncovered st ax : In ax [aC; aK] -> ax <> aM -> ~ In ax axes -> wsh ax = 1%nat -> base ax <> 0%nat -> 0 < lmbda -> (forall i, (i < n)%nat -> 0 < wl1 i) ->
  tends_to n (fun k => run k st) (fun _ => 0).
Proof.
  intros Ha Hm Hx E Hb Hl0 Hw0.
  assert (A0 : forall c k, applied c (place s axes base k) = 0).
  { intros c k. unfold applied, where_W. replace (forallb _ all) with false; [reflexivity|]. symmetry. destruct (forallb _ all) eqn:F; [|reflexivity].
    rewrite forallb_forall in F. assert (Q : In ax all) by (apply in_or_app; right; destruct Ha as [<-|[<-|[]]]; simpl; tauto).
    specialize (F ax Q). apply Nat.ltb_lt in F. rewrite upd_other in F by exact Hm. rewrite place_other in F by exact Hx. lia. }
  assert (FZ : forall x, FM applied x = lmbda * wl1norm n wl1 x).
  { intros x. rewrite MF_eq. rewrite (sumn_0 Cd); [ring|]. intros c Hc. apply sumn_0. intros k Hk. rewrite A0. ring. }
  assert (Z0 : allowed n z nonneg (fun _ => 0)) by (intros i Hi; split; intros _; lra).
  assert (N0 : wl1norm n wl1 (fun _ => 0) = 0) by (apply sumn_0; intros i Hi; rewrite Rmult_0_r; apply Rabs_R0).
  destruct (C78_converges st) as (p & [P1 P2] & P3).
  { exists (fun _ => 0). split; [exact Z0|]. intros x Hx'. rewrite !FZ, N0, Rmult_0_r. apply Rmult_le_pos; [lra|]. apply sumn_nonneg. intros; apply Rabs_pos. }
  specialize (P2 (fun _ => 0) Z0). rewrite !FZ, N0, Rmult_0_r in P2.
  intros i Hi. replace 0 with (p i); [apply P3; exact Hi|].
  assert (T : Rabs (wl1 i * p i) <= wl1norm n wl1 p) by (apply (sumn_ge_term n (fun i => Rabs (wl1 i * p i)) i); [intros; apply Rabs_pos|exact Hi]).
  assert (T0 : Rabs (wl1 i * p i) <= 0) by nra. pose proof (Rabs_pos (wl1 i * p i)) as T1. assert (T2 : Rabs (wl1 i * p i) = 0) by lra.
  destruct (Req_dec (p i) 0) as [Q|Q]; [exact Q|]. exfalso. apply Rabs_no_R0 in T2; [exact T2|]. apply Rmult_integral_contrapositive. split; [specialize (Hw0 i Hi); lra|exact Q].
Qed.
End C78.
Print Assumptions C78_converges.
Print Assumptions C78_applied.
Print Assumptions C78_full.
Print Assumptions C78_uncovered.

(** One mask for both channels of a signal (single-channel dictionary with an impulse as its only filter, one sample per channel
    with value 10, mask 1, lmbda = 1): in channel 1 the computed coefficient tends to 0, which does not minimise
    1/2 (x - 10)^2 + |x|. *)
Definition ch1 : index := fun ax => if Nat.eqb ax 1 then 1%nat else 0%nat.
Theorem C78_shared_mask_refuted :
  let one := fun _ : nat => 1%nat in
  let run := ams_iterate one one [0%nat] 1 2 3 1 1 (fun _ _ _ => 1) (fun _ _ => 10) ch1 one (fun _ => 1) 1 1 (fun _ => false) false 1 (fun _ => 1) in
  let FM := fun x => masked_fit one one [0%nat] 1 1 (fun _ _ _ => 1) (fun _ _ => 10) (intended one (fun _ => 1) 3) ch1 x + 1 * wl1norm 1 (fun _ => 1) x in
  forall st, tends_to 1 (fun k => run k st) (fun _ => 0) /\ ~ argmin (allowed 1 (fun _ => false) false) FM (fun _ => 0).
Proof.
  intros one run FM st. split.
  - apply (C78_uncovered one one [0%nat] 1 2 3 1 1 (fun _ _ _ => 1) (fun _ _ => 10) ch1 one (fun _ => 1) 1 1 1 (fun _ => false) false (fun _ => 1)) with (ax := 1%nat);
      try (intros; unfold one; first [lia|lra]); try lra; try lia; try discriminate; try reflexivity.
    + constructor; [intros []|constructor].
    + left. reflexivity.
    + intros [E|[]]. discriminate.
  - intros [_ H]. specialize (H (fun _ => 9) ltac:(intros i Hi; split; discriminate)).
    assert (E : forall v, FM (fun _ => v) = / 2 * ((v - 10) * (v - 10)) + Rabs v).
    { intros v. unfold FM, masked_fit, sqn, wl1norm, intended, nonzero, bcast, synth, conv, ext, coefs, one. cbn [sumn total forallb].
      destruct (Req_EM_T 1 0) as [A|A]; [lra|]. cbn [set_at]. unfold set_at. cbn [Nat.eqb Nat.ltb Nat.leb andb]. rewrite Rmult_1_l. replace (0 + Rabs (1 * v)) with (Rabs v) by (rewrite Rmult_1_l; ring). field. }
    rewrite !E in H. rewrite Rabs_R0, Rabs_right in H by lra. lra.
Qed.
Print Assumptions C78_shared_mask_refuted.

(** A mask of full shape: two samples, the second one masked out. *)
Example C78_instance :
  let s := fun ax => if Nat.eqb ax 0 then 2%nat else 1%nat in
  let W := fun i : index => if Nat.eqb (i 0%nat) 0 then 1 else 0 in
  exists p, argmin (allowed (1 * size s [0%nat]) (fun _ => false) true)
    (fun x => masked_fit s (fun _ => 1%nat) [0%nat] 1 1 (fun _ _ _ => 1) (fun _ _ => 10) (intended s W 3) (fun _ => 0%nat) x + 1 * wl1norm (1 * size s [0%nat]) (fun _ => 1) x) p /\
    tends_to (1 * size s [0%nat]) (fun k => ams_iterate s (fun _ => 1%nat) [0%nat] 1 2 3 1 1 (fun _ _ _ => 1) (fun _ _ => 10) (fun _ => 0%nat) s W 2 (3/2) (fun _ => false) true 1 (fun _ => 1) k
      (mkState (fun _ => 0) (fun _ => 0) (fun _ => 0) (fun _ => 0))) p.
Proof.
  intros s W. apply (C78_full s (fun _ => 1%nat) [0%nat] 1 2 3 1 1 (fun _ _ _ => 1) (fun _ _ => 10) (fun _ => 0%nat) s W 2 (3/2) 1 (fun _ => false) true (fun _ => 1)) with (ysh := s);
    try (intros; lra); try lia; try lra; try discriminate; try reflexivity.
  - constructor; [intros []|constructor].
  - intros ax _. unfold s. destruct (Nat.eqb ax 0); lia.
  - intros c k ax Hc Hk Ha. unfold s in *. cbn [size place] in *. cbn [Nat.eqb] in Hk. unfold upd.
    destruct Ha as [<-|[<-|[<-|[<-|[]]]]]; cbn [Nat.eqb]; try lia. rewrite Nat.div_1_r. lia.
  - intros i j H. unfold W. rewrite (H 0%nat) by (left; reflexivity). reflexivity.
Qed.
