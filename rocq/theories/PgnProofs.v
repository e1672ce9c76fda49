(** Auxiliary results for the proximal gradient convolutional solvers. *)
Require Import List Arith Reals Bool Lia Lra FunctionalExtensionality.
Require Import Verif.RVec Verif.Cplx Verif.FftModel Verif.FftProofs Verif.FftInv Verif.FftProps Verif.AdmmSpec Verif.AdmmProps Verif.StepsModel Verif.StepsSpec Verif.StepsProofs Verif.ProxModel.
Require Import Verif.CscModel Verif.CscSpec Verif.CscProofs Verif.CscIterModel Verif.CscIterProofs Verif.CscProps Verif.PgmModel Verif.PgmSpec Verif.PgmProofs Verif.PgmProps.
Require Import Verif.CcmModel Verif.CcmSpec Verif.CcmProofs Verif.CcmFit Verif.MduProofs Verif.PgnModel Verif.PgnSpec.
Require Verif.PcnProofs Verif.TvdFourier.
Import ListNotations.
Local Open Scope R_scope.

(** ** Quadratic functions *)
Section quadratic.
Variables (n : nat) (f : vec -> R) (grad : vec -> vec) (q : vec -> R).
Hypothesis Hexp : forall x d t, f (fun i => x i + t * d i) = f x + t * dot n (grad x) d + t * t * q d.
Hypothesis Hq : forall d, 0 <= q d.
Lemma qf_gradient : is_gradient n f grad.
Proof.
  intros x d eps He. assert (Hd : 0 < eps / (q d + 1)) by (apply Rdiv_lt_0_compat; [exact He|pose proof (Hq d); lra]).
  exists (mkposreal _ Hd). intros h Hh Hl. cbn [RIneq.pos] in Hl. rewrite Rplus_0_l, !Hexp.
  replace ((f x + h * dot n (grad x) d + h * h * q d - (f x + 0 * dot n (grad x) d + 0 * 0 * q d)) / h - dot n (grad x) d) with (h * q d) by (field; exact Hh).
  rewrite Rabs_mult, (Rabs_pos_eq (q d)) by apply Hq. pose proof (Hq d) as Q. pose proof (Rabs_pos h) as P.
  apply Rle_lt_trans with (eps / (q d + 1) * q d); [apply Rmult_le_compat_r; lra|].
  apply (Rmult_lt_reg_r (q d + 1)); [lra|]. replace (eps / (q d + 1) * q d * (q d + 1)) with (eps * q d) by (field; lra). rewrite Rmult_plus_distr_l. lra.
Qed.
Lemma qf_end x y : f y = f x + dot n (grad x) (fun i => y i - x i) + q (fun i => y i - x i).
Proof. assert (E : y = (fun i => x i + 1 * (y i - x i))) by (extensionality i; ring). rewrite E at 1. rewrite (Hexp x (fun i => y i - x i) 1). ring. Qed.
Lemma qf_convex : convex_on (fun _ => True) f.
Proof.
  intros x y t _ _ Ht. split; [exact Logic.I|]. unfold seg. rewrite (Hexp x (fun i => y i - x i) t), (qf_end x y). pose proof (Hq (fun i => y i - x i)).
  set (a := dot n _ _). set (b := q _) in *. assert (0 <= t * (1 - t) * b) by (apply Rmult_le_pos; [apply Rmult_le_pos; lra|assumption]). lra.
Qed.
Lemma qf_maj L : (forall d, q d <= L / 2 * nrm2 n d) -> forall x y, majorises n f grad L x y.
Proof. intros HB x y. unfold majorises. rewrite (qf_end y x). pose proof (HB (fun i => x i - y i)). lra. Qed.
End quadratic.

Lemma drun_first (W : Type) wadd wscal fwd inv dfd reg gr prox mono mom X0 L :
  dX W (drun W wadd wscal fwd inv dfd reg gr prox mono mom 1 (dinit W fwd X0 L)) = prox L (inv (wsub W wadd wscal (fwd X0) (wscal (1 / L) (gr (fwd X0))))).
Proof.
  cbn [drun]. unfold diter, dystep, dxstep, dstart, dinit. cbn [dX dXf dYf dXfprv dZZf dt dL dk dobj dobjprev]. change (Nat.ltb 0 0) with false. rewrite andb_false_r. reflexivity.
Qed.
Lemma rfl2norm2_ext_in d s axes xf yf : good_axes d s axes ->
  (forall i, (forall ax, (ax < d)%nat -> (i ax < s ax)%nat) -> (forall ax, (d <= ax)%nat -> i ax = O) -> xf i = yf i) -> rfl2norm2 d s axes xf = rfl2norm2 d s axes yf.
Proof.
  intros (ND & Hne & Ha) H. destruct (exists_last Hne) as (r & l & ->). unfold rfl2norm2. rewrite last_last.
  assert (Hl : (0 < s l)%nat) by (apply Ha; apply in_or_app; right; left; reflexivity).
  assert (Hd : (l < d)%nat) by (apply Ha; apply in_or_app; right; left; reflexivity).
  set (rest := filter (fun ax => negb (Nat.eqb ax l)) (seq 0 d)).
  assert (I1 : forall ax, In ax rest <-> (ax < d)%nat /\ ax <> l).
  { intros ax. unfold rest. rewrite filter_In, in_seq, negb_true_iff, Nat.eqb_neq. split; intros [A B]; split; try lia; exact B. }
  assert (E : forall k, (k < s l)%nat -> rsum s rest (fun i => cabs2 (xf i)) (upd idx0 l k) = rsum s rest (fun i => cabs2 (yf i)) (upd idx0 l k)).
  { intros k Hk. apply rsum_ext_in. intros i Hi Ho. f_equal. apply H.
    - intros ax Hax. destruct (Nat.eq_dec ax l) as [->|N].
      + rewrite (Ho l), upd_same; [exact Hk|]. rewrite I1. lia.
      + apply Hi. apply I1. split; assumption.
    - intros ax Hax. rewrite Ho by (rewrite I1; lia). rewrite upd_other by lia. reflexivity. }
  cbv zeta. pose proof (Nat.div_lt (s l) 2 Hl ltac:(lia)) as Q. rewrite (E O Hl). f_equal. f_equal; [f_equal|].
  - f_equal. apply sumn_ext. intros k Hk. apply E. assert ((s l + 1) / 2 <= s l)%nat; [|lia]. apply Nat.div_le_upper_bound; lia.
  - destruct (Nat.even (s l)); [|reflexivity]. apply E. rewrite Nat.add_sub. exact Q.
Qed.

Section pgn.
Variables (Nv dsh : nat -> nat) (dN B Cd M : nat).
Variables (D : nat -> nat -> index -> R) (S : nat -> index -> R).
Hypothesis HN : (0 < dN)%nat.
Hypothesis HB : (0 < B)%nat.
Hypothesis HC : (0 < Cd)%nat.
Hypothesis Hs : forall a, (a < dN)%nat -> (0 < Nv a)%nat.
Notation nv := (pshape Nv dN B).
Notation axes := (seq 0 dN).
Notation axB := (paxB dN).
Notation P := (pP Nv dN B).
Notation n := (M * P)%nat.
Notation at_ := (pat Nv dN B).
Notation AR := (arr nv axB).
Notation onB := (on_slice nv axB idx0).
Notation Dq := (pn_Df Nv dsh dN B D).
Notation zc := (fun c m => padR dsh axes (pD dN D c m)).
Notation sy d := (synth nv nv axes M zc (filt dN d)).
Notation pdot := (pdot nv dN B Cd).
Notation sdot := (sdot nv dN B M).
Notation ons c m := (on_slice nv axes (at_cm dN c m)).

Lemma nv_dN : nv dN = B. Proof. unfold pshape. rewrite Nat.ltb_irrefl, Nat.eqb_refl. reflexivity. Qed.
Lemma nv_sp a : (a < dN)%nat -> nv a = Nv a. Proof. intros H. unfold pshape. apply Nat.ltb_lt in H. rewrite H. reflexivity. Qed.
Lemma nv_pos a : (a < dN)%nat -> (0 < nv a)%nat. Proof. intros H. rewrite nv_sp by exact H. apply Hs, H. Qed.
Lemma NDB : NoDup axB. Proof. unfold paxB. constructor; [rewrite in_seq; lia|apply seq_NoDup]. Qed.
Lemma axB_pos a : In a axB -> (0 < nv a)%nat.
Proof. unfold paxB. intros [<-|H]; [rewrite nv_dN; exact HB|]. apply in_seq in H. apply nv_pos. lia. Qed.
Lemma axB_in a : In a axB <-> (a <= dN)%nat.
Proof. unfold paxB. cbn [In]. rewrite in_seq. lia. Qed.
Lemma axes_ne : axes <> []. Proof. destruct dN; [lia|discriminate]. Qed.
Lemma axes_pos a : In a axes -> (0 < nv a)%nat. Proof. intros H. apply in_seq in H. apply nv_pos. lia. Qed.
Lemma P_pos : (0 < P)%nat. Proof. apply size_pos. intros a Ha. apply axB_pos. exact Ha. Qed.
(** The positions of all slices, and those of one slice. *)
Lemma onB_ons p : onB p -> exists b, (b < B)%nat /\ ons b 0 p.
Proof.
  intros [H1 H2]. exists (p dN). split; [|split].
  - pose proof (H1 dN ltac:(apply axB_in; lia)) as H. rewrite nv_dN in H. exact H.
  - intros a Ha. apply in_seq in Ha. apply H1. apply axB_in. lia.
  - intros a Ha. rewrite in_seq in Ha. unfold at_cm. destruct (Nat.eqb_spec a dN) as [->|N]; [reflexivity|].
    rewrite H2 by (rewrite axB_in; lia). unfold idx0. destruct (Nat.eqb a (dN + 2)); reflexivity.
Qed.
Lemma ons_onB b p : (b < B)%nat -> ons b 0 p -> onB p.
Proof.
  intros Hb [H1 H2]. split.
  - intros a Ha. apply axB_in in Ha. destruct (Nat.eq_dec a dN) as [->|N]; [|apply H1; apply in_seq; lia].
    rewrite H2 by (rewrite in_seq; lia). unfold at_cm. rewrite Nat.eqb_refl, nv_dN. exact Hb.
  - intros a Ha. rewrite axB_in in Ha. rewrite H2 by (rewrite in_seq; lia). unfold at_cm, idx0. destruct (Nat.eqb_spec a dN); [lia|]. destruct (Nat.eqb a (dN + 2)); reflexivity.
Qed.
Lemma at_onB k : (k < P)%nat -> onB (at_ k).
Proof. intros Hk. apply place_slice; [apply NDB|exact axB_pos|exact Hk]. Qed.
Lemma on_sub i p : onB i -> on_slice nv axes i p -> onB p.
Proof.
  intros [I1 I2] [P1 P2]. split; intros a Ha.
  - apply axB_in in Ha. destruct (Nat.eq_dec a dN) as [->|N]; [|apply P1; apply in_seq; lia]. rewrite P2 by (rewrite in_seq; lia). apply I1. apply axB_in. lia.
  - rewrite axB_in in Ha. rewrite P2 by (rewrite in_seq; lia). apply I2. rewrite axB_in. lia.
Qed.
Lemma onB_inr p : onB p -> inr nv axes p.
Proof. intros [H1 _] a Ha. apply in_seq in Ha. apply H1. apply axB_in. lia. Qed.
Lemma onB_self p : onB p -> on_slice nv axes p p.
Proof. intros H. split; [apply onB_inr, H|reflexivity]. Qed.
Lemma rank_at k : (k < P)%nat -> rank nv axB (at_ k) = k.
Proof. intros Hk. apply rank_place; [apply NDB|exact axB_pos|exact Hk]. Qed.
Lemma at_rank p : onB p -> at_ (rank nv axB p) = p.
Proof. intros Hp. apply place_rank; [apply NDB|exact Hp]. Qed.
Lemma rank_P p : onB p -> (rank nv axB p < P)%nat.
Proof. intros [H _]. apply rank_lt. exact H. Qed.

(** The array of all maps and its vector. *)
Definition dd (x : vec) : index -> R := fun p => AR x (p (dN + 2)%nat) p.
Definition fl (G : index -> R) : vec := fun r => G (set_at (at_ (r mod P)) (dN + 2) (r / P)).
Lemma filt_dd x m : filt dN (dd x) m = AR x m.
Proof.
  extensionality p. unfold filt, dd. assert (E : set_at (set_at p (dN + 1) 0) (dN + 2) m (dN + 2)%nat = m) by (unfold set_at; rewrite Nat.eqb_refl; reflexivity). rewrite E.
  unfold arr. f_equal. f_equal. apply rank_ext. intros a Ha. apply axB_in in Ha. unfold set_at. destruct (Nat.eqb_spec a (dN + 2)); [lia|]. destruct (Nat.eqb_spec a (dN + 1)); [lia|reflexivity].
Qed.
Lemma dd_lin x t d : dd (fun i => x i + t * d i) = (fun p => dd x p + t * dd d p). Proof. reflexivity. Qed.
Lemma sumP F : sumn P (fun k => F (at_ k)) = sumn B (fun b => total nv axes F (at_cm dN b 0)).
Proof.
  unfold pP, pat. rewrite (sum_place nv axB axB_pos F idx0). unfold paxB. cbn [total]. rewrite nv_dN. apply sumn_ext. intros b _.
  f_equal. extensionality a. unfold set_at, at_cm, idx0. destruct (Nat.eqb a dN); [reflexivity|]. destruct (Nat.eqb a (dN + 2)); reflexivity.
Qed.
Lemma sdot_dot G x : sdot G (dd x) = dot n (fl G) x.
Proof.
  unfold dot. rewrite sumn_flat by exact P_pos. unfold CcmFit.sdot. apply sumn_ext. intros m _.
  rewrite (sumn_ext P _ (fun k => (fun p => G (mv dN m p) * AR x m p) (at_ k))).
  - etransitivity; [|symmetry; exact (sumP (fun p : index => G (mv dN m p) * AR x m p))]. unfold fdot. apply sumn_ext. intros b Hb. rewrite <- (mv_base dN HN Cd HC b m).
    rewrite <- (total_move nv axes (mv dN m) (fun p => G p * dd x p)) by (intros a j p Ha; apply (mv_set dN HN Cd HC); exact Ha).
    f_equal. extensionality p. f_equal. rewrite <- filt_dd. reflexivity.
  - intros k Hk. cbv beta. unfold fl. rewrite div_at, mod_at by exact Hk. unfold arr. rewrite rank_at by exact Hk. f_equal.
    f_equal. extensionality a. unfold mv, set_at. destruct (Nat.eqb_spec a (dN + 2)); [reflexivity|]. destruct (Nat.eqb_spec a (dN + 1)) as [->|]; [|reflexivity].
    destruct (at_onB k Hk) as [_ H2]. rewrite H2 by (rewrite axB_in; lia). reflexivity.
Qed.
Lemma sdot_nrm x : sdot (dd x) (dd x) = nrm2 n x.
Proof.
  rewrite sdot_dot. unfold nrm2, dot. apply sumn_ext. intros r Hr. f_equal.
  pose proof P_pos as HP. assert (Hm : (r mod P < P)%nat) by (apply Nat.mod_upper_bound; lia).
  unfold fl, dd. assert (E : set_at (at_ (r mod P)) (dN + 2) (r / P) (dN + 2)%nat = (r / P)%nat) by (unfold set_at; rewrite Nat.eqb_refl; reflexivity). rewrite E.
  unfold arr. rewrite (rank_ext nv axB _ (at_ (r mod P))).
  - rewrite rank_at by exact Hm. f_equal. fold (pP Nv dN B). rewrite (Nat.div_mod r P) at 3 by lia. lia.
  - intros a Ha. apply axB_in in Ha. unfold set_at. destruct (Nat.eqb_spec a (dN + 2)); [lia|reflexivity].
Qed.

(** ** The transform *)
Lemma un_fwd x m i : (m < M)%nat -> onB i -> pn_un Nv dN B (pn_fwd Nv dN B M x) m i = rfftn nv axes (AR x m) i.
Proof.
  intros Hm Hi. unfold pn_un, pn_fwd, pcut. pose proof (rank_P i Hi) as HR. fold (pP Nv dN B). apply Nat.ltb_lt in HR, Hm. rewrite HR, Hm. cbn [andb]. rewrite at_rank by exact Hi. reflexivity.
Qed.
Lemma cut_ext g h : (forall m k, (m < M)%nat -> (k < P)%nat -> g m k = h m k) -> pcut Nv dN B M g = pcut Nv dN B M h.
Proof.
  intros H. extensionality m. extensionality k. unfold pcut. destruct (Nat.ltb_spec m M); [|reflexivity]. destruct (Nat.ltb_spec k P); [|reflexivity]. cbn [andb]. apply H; assumption.
Qed.
Lemma arr_agree x y m p : agree n x y -> (m < M)%nat -> onB p -> AR x m p = AR y m p.
Proof. intros H Hm Hp. unfold arr. apply H. pose proof (rank_P p Hp) as HR. fold (pP Nv dN B). nia. Qed.
Lemma fwd_lin x t y : pn_fwd Nv dN B M (fun i => x i + t * y i) = padd (pn_fwd Nv dN B M x) (pscal t (pn_fwd Nv dN B M y)).
Proof.
  extensionality m. extensionality k. unfold pn_fwd, padd, pscal, pcut. destruct (_ && _)%bool; [|unfold cadd, cmul, ofR, c0, re, im; cbn [fst snd]; f_equal; ring].
  transitivity (rfftn nv axes (fun p => 1 * AR x m p + t * AR y m p) (at_ k)); [apply (f_equal (fun h => rfftn nv axes h (at_ k))); extensionality p; unfold arr; ring|].
  rewrite rfftn_lin by exact axes_ne. change (paxN dN) with axes. set (a := rfftn nv axes (AR x m) (at_ k)). set (b := rfftn nv axes (AR y m) (at_ k)).
  unfold cadd, cmul, ofR, re, im. cbn [fst snd]. f_equal; ring.
Qed.
Lemma fwd_local x y : agree n x y -> pn_fwd Nv dN B M x = pn_fwd Nv dN B M y.
Proof.
  intros H. apply cut_ext. intros m k Hm Hk. apply rfftn_slice; [exact axes_ne|]. intros p Hp. apply arr_agree; [exact H|exact Hm|]. apply (on_sub (at_ k)); [apply at_onB; exact Hk|exact Hp].
Qed.
Lemma fl_at r : (r < n)%nat -> (r / P < M)%nat /\ (r mod P < P)%nat /\ r = (r / P * P + r mod P)%nat.
Proof.
  intros Hr. pose proof P_pos as HP. split; [|split].
  - apply Nat.div_lt_upper_bound; [lia|]. rewrite Nat.mul_comm. exact Hr.
  - apply Nat.mod_upper_bound. lia.
  - rewrite (Nat.div_mod r P) at 1 by lia. lia.
Qed.
Lemma inv_fwd x r : (r < n)%nat -> pn_inv Nv dN B (pn_fwd Nv dN B M x) r = x r.
Proof.
  intros Hr. destruct (fl_at r Hr) as (H1 & H2 & H3). unfold pn_inv. pose proof (at_onB _ H2) as Ho.
  transitivity (irfftn nv axes (rfftn nv axes (AR x (r / P))) (at_ (r mod P))).
  - apply irfftn_slice; [apply seq_NoDup|exact axes_ne|apply onB_self; exact Ho|]. intros i Hi. apply un_fwd; [exact H1|]. apply (on_sub _ _ Ho Hi).
  - rewrite inv_rfft; [|apply seq_NoDup|exact axes_ne|apply onB_inr; exact Ho]. unfold arr. rewrite rank_at by exact H2. fold (pP Nv dN B). rewrite <- H3. reflexivity.
Qed.

(** ** The dictionary *)
Lemma pad_pad u p : inr nv axes p -> padR nv axes (padR dsh axes u) p = padR dsh axes u p.
Proof.
  intros Hp. unfold padR at 1. match goal with |- (if ?b then _ else _) = _ => assert (E : b = true) end; [|rewrite E; reflexivity].
  apply forallb_forall. intros a Ha. apply Nat.ltb_lt. apply Hp. exact Ha.
Qed.
Lemma Df_zc c m i : Df nv nv axes zc c m i = Dq c m i.
Proof. unfold Df, pn_Df. apply rfftn_slice; [exact axes_ne|]. intros p [Hp _]. apply pad_pad. exact Hp. Qed.
Lemma synth_zc X c p : synth nv nv axes M zc X c p = synth nv dsh axes M (pdict dN D) X c p.
Proof.
  unfold synth. apply sumn_ext. intros m _. unfold conv. apply CscIterProofs.total_ext; [apply seq_NoDup|]. intros k [Hk _]. f_equal. apply (pad_pad (pD dN D c m)). exact Hk.
Qed.
Lemma sy_pmodel x c p : sy (dd x) c p = pmodel nv dsh dN M AR D x c p.
Proof.
  unfold pmodel. rewrite <- synth_zc. apply (f_equal (fun X => synth nv nv axes M zc X c p)). extensionality m. apply filt_dd.
Qed.
Notation res x c := (fun p : index => sy (dd x) c p - S c p).
Lemma syn_spec x c i : onB i -> pn_syn Nv dsh dN B M D (pn_fwd Nv dN B M x) c i = rfftn nv axes (sy (dd x) c) i.
Proof.
  intros Hi. destruct (exists_last axes_ne) as (r & l & E). pose proof (seq_NoDup dN 0) as N. pose proof (onB_inr i Hi) as R1.
  transitivity (csumn M (fun m => cmul (Df nv nv axes zc c m i) (rfftn nv axes (filt dN (dd x) m) i))).
  - unfold pn_syn. apply csumn_ext. intros m Hm. rewrite Df_zc, filt_dd, un_fwd by assumption. reflexivity.
  - rewrite E in *. symmetry. apply synth_f; assumption.
Qed.
Lemma Rf_spec x c i : onB i -> pn_Rf Nv dsh dN B M D S (pn_fwd Nv dN B M x) c i = rfftn nv axes (res x c) i.
Proof.
  intros Hi. unfold pn_Rf. rewrite syn_spec by exact Hi. unfold pn_Sf, CscModel.Sf.
  transitivity (rfftn nv axes (fun p => 1 * sy (dd x) c p + (-1) * S c p) i); [|apply (f_equal (fun h => rfftn nv axes h i)); extensionality p; ring].
  rewrite rfftn_lin by exact axes_ne. change (paxN dN) with axes. set (a := rfftn nv axes (S c) i). set (b := rfftn nv axes (sy (dd x) c) i).
  unfold csub, cadd, copp, cmul, ofR, re, im. cbn [fst snd]. f_equal; ring.
Qed.
Lemma Rf_inv x c p : onB p -> irfftn nv axes (pn_Rf Nv dsh dN B M D S (pn_fwd Nv dN B M x) c) p = res x c p.
Proof.
  intros Hp. transitivity (irfftn nv axes (rfftn nv axes (res x c)) p).
  - apply irfftn_slice; [apply seq_NoDup|exact axes_ne|apply onB_self; exact Hp|]. intros i Hi. apply Rf_spec. apply (on_sub _ _ Hp Hi).
  - apply (inv_rfft nv axes (res x c)); [apply seq_NoDup|exact axes_ne|apply onB_inr; exact Hp].
Qed.

(** ** The data term *)
Variable w : nat -> index -> R.
Definition fw (x : vec) : R := mf nv dN B M Cd zc w S (dd x).
Definition ug (x : vec) (c : nat) (p : index) : R := w c p * w c p * (sy (dd x) c p - S c p).
Definition gw (x : vec) : vec := fl (of_spec nv dN (adjf nv dN Cd zc (ug x))).
Definition qw (d : vec) : R := / 2 * pdot (fun c p => w c p * sy (dd d) c p) (fun c p => w c p * sy (dd d) c p).
Lemma fw_exp x d t : fw (fun i => x i + t * d i) = fw x + t * dot n (gw x) d + t * t * qw d.
Proof.
  unfold fw, gw. rewrite dd_lin, mf_exp. rewrite <- sdot_dot. rewrite (adj_sy nv dN B M HN nv_pos Cd zc HC). reflexivity.
Qed.
Lemma qw_nonneg d : 0 <= qw d.
Proof. unfold qw. pose proof (pdot_nonneg nv dN B Cd (fun c p => w c p * sy (dd d) c p)). lra. Qed.
Lemma fw_pfit x : fw x = pfit nv dsh dN B Cd M AR D S w x.
Proof.
  unfold fw, mf, pfit. apply sumn_ext. intros b _. f_equal. apply sumn_ext. intros c _.
  assert (E : at_cm dN b 0 = slice dN b) by (extensionality a; unfold at_cm, slice; destruct (Nat.eqb a dN); [reflexivity|]; destruct (Nat.eqb a (dN + 2)); reflexivity).
  rewrite E. apply (f_equal (fun h => sqn nv axes h (slice dN b))). extensionality p. rewrite sy_pmodel. reflexivity.
Qed.
(** The spectrum of the gradient. *)
Lemma adj_herm u m : hermitian_nd nv axes (adjf nv dN Cd zc u m).
Proof.
  intros i Hi. unfold adjf. rewrite csumn_conj. apply csumn_ext. intros c _. unfold Df. rewrite !conj_mul, !(rf_herm nv dN HN nv_pos Cd HC _ i Hi). reflexivity.
Qed.
Lemma gw_arr u m p : (m < M)%nat -> onB p -> AR (fl (of_spec nv dN (adjf nv dN Cd zc u))) m p = irfftn nv axes (adjf nv dN Cd zc u m) p.
Proof.
  intros Hm Hp. pose proof (rank_P p Hp) as HR. unfold arr. fold (pP Nv dN B). unfold fl. rewrite div_at, mod_at by exact HR. rewrite at_rank by exact Hp.
  destruct (onB_ons p Hp) as (b & Hb & Ho). rewrite <- (filt_spec nv dN HN Cd HC (adjf nv dN Cd zc u) b m p Ho). unfold filt. f_equal. f_equal.
  extensionality a. unfold set_at. destruct (Nat.eqb_spec a (dN + 1)) as [->|]; [|reflexivity]. destruct Hp as [_ H2]. apply H2. rewrite axB_in. lia.
Qed.
Lemma gw_spec x : pn_fwd Nv dN B M (gw x) = pcut Nv dN B M (fun m k => csumn Cd (fun c => cmul (conj (Dq c m (at_ k))) (rfftn nv axes (ug x c) (at_ k)))).
Proof.
  apply cut_ext. intros m k Hm Hk. pose proof (at_onB k Hk) as Ho. change (paxN dN) with axes.
  transitivity (rfftn nv axes (irfftn nv axes (adjf nv dN Cd zc (ug x) m)) (at_ k)).
  - apply rfftn_slice; [exact axes_ne|]. intros p Hp. apply gw_arr; [exact Hm|]. apply (on_sub _ _ Ho Hp).
  - transitivity (adjf nv dN Cd zc (ug x) m (at_ k)).
    + destruct (exists_last axes_ne) as (r & l & E). pose proof (seq_NoDup dN 0) as N. pose proof (onB_inr _ Ho) as R1. pose proof axes_pos as R2. pose proof (adj_herm (ug x) m) as R3. rewrite E in *. apply rfftn_irfftn; assumption.
    + unfold adjf. apply csumn_ext. intros c _. rewrite Df_zc. reflexivity.
Qed.
Lemma gw_masked x : pnm_grad Nv dsh dN B Cd M D S w (pn_fwd Nv dN B M x) = pn_fwd Nv dN B M (gw x).
Proof.
  rewrite gw_spec. apply cut_ext. intros m k Hm Hk. pose proof (at_onB k Hk) as Ho. apply csumn_ext. intros c Hc. f_equal.
  apply rfftn_slice; [exact axes_ne|]. intros p Hp. change (paxN dN) with axes. rewrite Rf_inv by (apply (on_sub _ _ Ho Hp)). unfold ug. ring.
Qed.
Lemma gw_plain x : (forall c p, w c p = 1) -> pn_grad Nv dsh dN B Cd M D S (pn_fwd Nv dN B M x) = pn_fwd Nv dN B M (gw x).
Proof.
  intros H1. rewrite gw_spec. apply cut_ext. intros m k Hm Hk. pose proof (at_onB k Hk) as Ho. apply csumn_ext. intros c Hc. f_equal.
  rewrite Rf_spec by exact Ho. apply (f_equal (fun h => rfftn nv axes h (at_ k))). extensionality p. unfold ug. rewrite H1. ring.
Qed.
(** Its value. *)
Lemma all_slices F : rsum nv (seq 0 (dN + 1)) F idx0 = sumn B (fun b => total nv axes F (at_cm dN b 0)).
Proof.
  rewrite PcnProofs.rsum_fibers. cbn [seq rsum]. rewrite nv_dN. apply sumn_ext. intros b _. rewrite <- total_rsum. f_equal.
  extensionality a. unfold upd, at_cm, idx0. destruct (Nat.eqb a dN); [reflexivity|]. destruct (Nat.eqb a (dN + 2)); reflexivity.
Qed.
Lemma good_ax : good_axes (dN + 1) nv axes.
Proof. split; [apply seq_NoDup|]. split; [exact axes_ne|]. intros a Ha. split; [apply in_seq in Ha; lia|apply axes_pos; exact Ha]. Qed.
Lemma all_onB i : (forall a, (a < dN + 1)%nat -> (i a < nv a)%nat) -> (forall a, (dN + 1 <= a)%nat -> i a = O) -> onB i.
Proof. intros H1 H2. split; intros a Ha; rewrite axB_in in Ha; [apply H1; lia|apply H2; lia]. Qed.
Lemma dfd_plain x : (forall c p, w c p = 1) -> pn_dfd Nv dsh dN B Cd M D S (pn_fwd Nv dN B M x) = fw x.
Proof.
  intros H1. unfold pn_dfd, fw, mf. rewrite sumn_scal. unfold Rdiv. rewrite Rmult_comm. f_equal. rewrite sumn_swap. apply sumn_ext. intros c _. change (paxN dN) with axes.
  rewrite (rfl2norm2_ext_in (dN + 1) nv axes _ (rfftn nv axes (res x c)) good_ax) by (intros i I1 I2; apply Rf_spec; apply all_onB; assumption).
  rewrite C28_half_spectrum by exact good_ax. unfold norm2_r. rewrite all_slices. apply sumn_ext. intros b _. unfold sqn. f_equal. extensionality p. rewrite H1. ring.
Qed.
Lemma dfd_masked x : pnm_dfd Nv dsh dN B Cd M D S w (pn_fwd Nv dN B M x) = fw x.
Proof.
  unfold pnm_dfd, fw, mf. rewrite <- Rsqr_pow2, Rsqr_sqrt.
  - rewrite sumn_scal. unfold Rdiv. rewrite Rmult_comm. f_equal. rewrite sumn_swap. apply sumn_ext. intros c _. rewrite all_slices. apply sumn_ext. intros b Hb.
    unfold sqn. apply CscIterProofs.total_ext; [apply seq_NoDup|]. intros p Hp. change (paxN dN) with axes. rewrite Rf_inv by (apply (ons_onB b p Hb Hp)). ring.
  - apply sumn_nonneg. intros c _. apply PcnProofs.rsum_nonneg. intros. apply pow2_ge_0.
Qed.
(** Its curvature. *)
Lemma qw_bound L W2 : 0 <= L -> 0 <= W2 -> (forall c p, (c < Cd)%nat -> onB p -> w c p * w c p <= W2) ->
  (forall i v, onB i -> sumn Cd (fun c => cabs2 (csumn M (fun m => cmul (Dq c m i) (v m)))) <= L * sumn M (fun m => cabs2 (v m))) ->
  forall d, qw d <= W2 * L / 2 * nrm2 n d.
Proof.
  intros HL HW Hw HG d. rewrite <- sdot_nrm. unfold qw, pdot, CcmFit.sdot, fdot.
  assert (K1 : forall b, (b < B)%nat -> sumn Cd (fun c => total nv axes (fun p => sy (dd d) c p * sy (dd d) c p) (at_cm dN b 0)) <= L * sumn M (fun m => total nv axes (fun p => AR d m p * AR d m p) (at_cm dN b 0))).
  { intros b Hb. pose proof (prodn_pos nv axes axes_pos) as PP. apply (Rmult_le_reg_l (prodn nv axes)); [exact PP|].
    assert (PS : forall x, prodn nv axes * total nv axes (fun p => x p * x p) (at_cm dN b 0) = rsum nv axes (fun i => cabs2 (rfftn nv axes x i)) (at_cm dN b 0)).
    { intros x. apply (TvdFourier.parseval_slice nv axes (seq_NoDup dN 0) axes_ne axes_pos x). }
    replace (prodn nv axes * (L * sumn M (fun m => total nv axes (fun p => AR d m p * AR d m p) (at_cm dN b 0)))) with (L * sumn M (fun m => prodn nv axes * total nv axes (fun p => AR d m p * AR d m p) (at_cm dN b 0))) by (rewrite sumn_scal; ring).
    rewrite <- sumn_scal. rewrite (sumn_ext Cd _ _ (fun c _ => PS (sy (dd d) c))), (sumn_ext M _ _ (fun m _ => PS (AR d m))). rewrite <- !rsum_sumn, <- rsum_scal.
    apply (TvdFourier.rsum_le nv axes (seq_NoDup dN 0) axes_pos). intros i I1 I2.
    assert (Hi : onB i) by (apply (ons_onB b i Hb); split; assumption).
    eapply Rle_trans; [|apply HG; exact Hi]. apply Req_le. apply sumn_ext. intros c _. f_equal. rewrite <- syn_spec by exact Hi. unfold pn_syn. apply csumn_ext. intros m Hm. rewrite un_fwd by assumption. reflexivity. }
  set (T := sumn M (fun m => sumn B (fun c => total nv axes (fun p => dd d p * dd d p) (at_cm dN c m)))).
  assert (ET : T = sumn B (fun b => sumn M (fun m => total nv axes (fun p => AR d m p * AR d m p) (at_cm dN b 0)))).
  { unfold T. rewrite sumn_swap. apply sumn_ext. intros b _. apply sumn_ext. intros m _. rewrite <- (mv_base dN HN Cd HC b m).
    rewrite <- (total_move nv axes (mv dN m) (fun p => dd d p * dd d p)) by (intros a j p Ha; apply (mv_set dN HN Cd HC); exact Ha). f_equal. extensionality p. rewrite <- filt_dd. reflexivity. }
  assert (K2 : sumn B (fun b => sumn Cd (fun c => total nv axes (fun p => w c p * sy (dd d) c p * (w c p * sy (dd d) c p)) (at_cm dN b 0))) <= W2 * (L * T)).
  { rewrite ET, <- !sumn_scal. apply sumn_le. intros b Hb. eapply Rle_trans; [|apply Rmult_le_compat_l; [exact HW|apply K1; exact Hb]].
    rewrite <- sumn_scal. apply sumn_le. intros c Hc.
    replace (W2 * total nv axes (fun p => sy (dd d) c p * sy (dd d) c p) (at_cm dN b 0)) with (total nv axes (fun p => W2 * (sy (dd d) c p * sy (dd d) c p) + 0 * 0) (at_cm dN b 0)) by (rewrite (total_lin nv axes W2 (fun p => sy (dd d) c p * sy (dd d) c p) 0 (fun _ => 0)); ring).
    apply (total_mono nv dN). intros p Hp. pose proof (Hw c p Hc (ons_onB b p Hb Hp)) as Q. set (v := sy (dd d) c p). pose proof (Rle_0_sqr v) as Q2. unfold Rsqr in Q2. nra. }
  apply Rle_trans with (/ 2 * (W2 * (L * T))); [apply Rmult_le_compat_l; [lra|exact K2]|]. apply Req_le. transitivity (W2 * L / 2 * T); [field|reflexivity].
Qed.
End pgn.

(** ** The regulariser and its proximal operator *)
Section reg.
Variables (Nv : nat -> nat) (dN B M : nat) (z : nat -> bool) (nonneg : bool) (lmbda : R) (wl1 : vec).
Notation n := (M * pP Nv dN B)%nat.
Hypothesis Hlam : 0 <= lmbda.
Hypothesis Hwl1 : forall i, (i < n)%nat -> 0 <= wl1 i.
Notation prox := (pn_prox z nonneg lmbda wl1).
Notation g := (pn_reg Nv dN B M lmbda wl1).
Lemma reg_convex : convex_on (masked n z nonneg) g.
Proof. apply (l1reg_convex (masked n z nonneg) n lmbda wl1 Hlam). apply masked_convex. Qed.
Lemma prox_min L V : 0 < L -> argmin (masked n z nonneg) (fun x => g x + L / 2 * nrm2 n (fun i => x i - V i)) (prox L V).
Proof.
  intros HL. destruct (cs_y n z nonneg lmbda L wl1 V (fun _ => 0) Hlam HL Hwl1) as [P1 P2].
  assert (Q : cs_ystep z nonneg lmbda L wl1 V (fun _ => 0) = prox L V).
  { unfold cs_ystep, pn_prox, bpdn_ystep, pb_prox. extensionality i. destruct (z i); [reflexivity|]. unfold clip, prox_l1. rewrite Rplus_0_r. reflexivity. }
  rewrite Q in *. apply sub_argmin; [exact HL|exact P1|]. intros y Hy. specialize (P2 y Hy).
  replace (fun i => L * (V i - prox L V i)) with (fun i => L * (V i + 0 - prox L V i)) by (extensionality i; ring). exact P2.
Qed.
Lemma prox_agree L x y : agree n x y -> agree n (prox L x) (prox L y).
Proof. intros H i Hi. unfold pn_prox. destruct (z i); [reflexivity|]. unfold pb_prox, clip, prox_l1. rewrite (H i Hi). reflexivity. Qed.
Lemma reg_agree x y : agree n x y -> g x = g y.
Proof. intros H. unfold pn_reg. f_equal. apply sumn_ext. intros i Hi. rewrite (H i Hi). reflexivity. Qed.
End reg.
