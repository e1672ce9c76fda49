Require Import Reals ZArith Bool Lia Lra.
Require Import Verif.RVec Verif.SynModel Verif.SynSpec.
Local Open Scope R_scope.

Lemma Int_part_unit x : 0 <= x < 1 -> Int_part x = 0%Z.
Proof.
  intros H. unfold Int_part. destruct (archimed x) as [A B].
  assert (L : (0 < up x)%Z) by (apply lt_IZR; lra). assert (U : (up x < 2)%Z) by (apply lt_IZR; lra). lia.
Qed.
Lemma trunc_unit x : -1 < x < 1 -> trunc x = 0.
Proof.
  intros H. unfold trunc. destruct (Rle_dec 0 x); [rewrite Int_part_unit by lra; reflexivity|].
  rewrite Int_part_unit by lra. ring.
Qed.
Lemma trunc_1 : trunc 1 = 1.
Proof.
  unfold trunc. destruct (Rle_dec 0 1); [|lra]. unfold Int_part. destruct (archimed 1) as [A B].
  assert (L : (1 < up 1)%Z) by (apply lt_IZR; lra). assert (U : (up 1 < 3)%Z) by (apply lt_IZR; lra). replace (up 1) with 2%Z by lia. reflexivity.
Qed.

(** ** rndmask *)
(** For a real type: the mask is 0 where |u| < frc, 1 where |u| > frc, and the draw itself where |u| = frc. *)
Theorem C99_mask (frc u : R) : 0 <= frc <= 1 ->
  (Rabs u < frc -> rndmask Float frc u = 0) /\ (frc < Rabs u -> rndmask Float frc u = 1) /\ (Rabs u = frc -> rndmask Float frc u = u).
Proof.
  intros Hf. unfold rndmask, cast. repeat split; intros H.
  - destruct (Rlt_dec frc (Rabs u)); [lra|]. destruct (Rlt_dec (Rabs u) frc); [reflexivity|lra].
  - destruct (Rlt_dec frc (Rabs u)); [|lra]. rewrite Rabs_R1. destruct (Rlt_dec 1 frc); [lra|reflexivity].
  - destruct (Rlt_dec frc (Rabs u)); [lra|]. destruct (Rlt_dec (Rabs u) frc); [lra|reflexivity].
Qed.
Print Assumptions C99_mask.
(** An entry is zero with probability frc, for 0 <= frc <= 1; for larger frc always. *)
Theorem C99_mask_fraction (frc : R) : 0 <= frc ->
  (frc <= 1 -> is_interval (fun u => rndmask Float frc u = 0) (- frc) frc /\ probability (- frc) frc = frc) /\
  (1 < frc -> forall u, draw u -> rndmask Float frc u = 0).
Proof.
  intros H0. split.
  - intros H1. split; [|unfold probability; field]. split; [lra|]. split; [lra|]. split.
    + intros u _ Hu. apply (C99_mask frc u); [lra|]. apply Rabs_def1; lra.
    + intros u _ E. destruct (Rle_dec (Rabs u) frc) as [L|N].
      * pose proof (Rle_abs u). pose proof (Rle_abs (- u)). rewrite Rabs_Ropp in *. lra.
      * exfalso. destruct (C99_mask frc u) as (_ & K & _); [lra|]. rewrite K in E; lra.
  - intros H1 u Hu. unfold rndmask, cast. unfold draw in Hu.
    assert (A : Rabs u < frc) by (apply Rabs_def1; lra).
    destruct (Rlt_dec frc (Rabs u)); [lra|]. destruct (Rlt_dec (Rabs u) frc); [reflexivity|lra].
Qed.
Print Assumptions C99_mask_fraction.
(** The values need not be 0 and 1: a draw of size frc is kept. *)
Theorem C99_mask_values_refuted : draw (1 / 2) /\ rndmask Float (1 / 2) (1 / 2) = 1 / 2.
Proof. split; [unfold draw; lra|]. apply (C99_mask (1 / 2) (1 / 2)); [lra|]. apply Rabs_right. lra. Qed.
Print Assumptions C99_mask_values_refuted.
(** With an integer type every entry is zero, with bool every entry is one, whatever the fraction asked for (draws -1 and 0 apart). *)
Theorem C99_mask_types_refuted (frc u : R) : 0 <= frc <= 1 -> -1 < u < 1 ->
  rndmask Int frc u = 0 /\ (u <> 0 -> rndmask BoolT frc u = 1).
Proof.
  intros Hf Hu. split.
  - unfold rndmask, cast. rewrite (trunc_unit u), (trunc_unit 0), trunc_1 by lra. rewrite Rabs_R0.
    destruct (Rlt_dec frc 0); [lra|]. rewrite Rabs_R0. destruct (Rlt_dec 0 frc); reflexivity.
  - intros Hz. unfold rndmask, cast. destruct (Req_EM_T u 0); [contradiction|]. destruct (Req_EM_T 1 0); [lra|].
    rewrite Rabs_R1. destruct (Rlt_dec frc 1); rewrite Rabs_R1; destruct (Rlt_dec 1 frc); [lra|reflexivity|lra|reflexivity].
Qed.
Print Assumptions C99_mask_types_refuted.

(** ** spnoise *)
(** An entry is smn for u < frc - 1, smx for u > 1 - frc and otherwise unchanged; each noise value has probability frc / 2. *)
Theorem C99_noise (frc smn smx s u : R) : 0 <= frc <= 1 ->
  (u < frc - 1 -> spnoise Float frc smn smx s u = smn) /\ (1 - frc < u -> spnoise Float frc smn smx s u = smx) /\
  (frc - 1 <= u <= 1 - frc -> forall d, spnoise d frc smn smx s u = s).
Proof.
  intros Hf. unfold spnoise, cast. repeat split.
  - intros H. destruct (Rlt_dec (1 - frc) u); [lra|]. destruct (Rlt_dec u (frc - 1)); [reflexivity|lra].
  - intros H. destruct (Rlt_dec (1 - frc) u); [reflexivity|lra].
  - intros H d. destruct (Rlt_dec (1 - frc) u); [lra|]. destruct (Rlt_dec u (frc - 1)); [lra|reflexivity].
Qed.
Print Assumptions C99_noise.
Theorem C99_noise_fraction (frc smn smx s : R) : 0 <= frc <= 1 -> smn <> s -> smx <> s -> smn <> smx ->
  is_interval (fun u => spnoise Float frc smn smx s u = smn) (-1) (frc - 1) /\ probability (-1) (frc - 1) = frc / 2 /\
  is_interval (fun u => spnoise Float frc smn smx s u = smx) (1 - frc) 1 /\ probability (1 - frc) 1 = frc / 2 /\
  is_interval (fun u => spnoise Float frc smn smx s u = s) (frc - 1) (1 - frc) /\ probability (frc - 1) (1 - frc) = 1 - frc.
Proof.
  intros Hf N1 N2 N3.
  assert (T : forall u, (u < frc - 1 /\ spnoise Float frc smn smx s u = smn) \/ (1 - frc < u /\ spnoise Float frc smn smx s u = smx) \/
    (frc - 1 <= u <= 1 - frc /\ spnoise Float frc smn smx s u = s)).
  { intros u. destruct (C99_noise frc smn smx s u Hf) as (A & B & C0).
    destruct (Rlt_dec u (frc - 1)); [left; auto|]. destruct (Rlt_dec (1 - frc) u); [right; left; auto|]. right; right. split; [lra|apply (C0 ltac:(lra) Float)]. }
  unfold is_interval. repeat match goal with |- _ /\ _ => split end; try (unfold probability; field); try lra;
    intros u Hu; unfold draw in Hu; destruct (T u) as [[A B]|[[A B]|[A B]]]; try lra; intros; try lra; try congruence.
Qed.
Print Assumptions C99_noise_fraction.
(** In an integer image the noise values are truncated: salt of value 1/2 becomes 0. *)
Theorem C99_noise_types_refuted (frc s u : R) : 0 <= frc <= 1 -> 1 - frc < u -> spnoise Int frc 0 (1 / 2) s u = 0.
Proof. intros Hf H. unfold spnoise, cast. destruct (Rlt_dec (1 - frc) u); [|lra]. apply trunc_unit. lra. Qed.
Print Assumptions C99_noise_types_refuted.

(** ** rgb2gray *)
(** For a real type: a weighted mean, between the smallest and the largest channel, the identity on grey pixels and linear. *)
Theorem C99_gray (a b : R) (rgb : nat -> R) : (forall k, (k < 3)%nat -> a <= rgb k <= b) ->
  a <= rgb2gray Float rgb <= b /\ (forall g, rgb2gray Float (fun _ => g) = g) /\
  (forall c q, rgb2gray Float (fun k => c * rgb k + q k) = c * rgb2gray Float rgb + rgb2gray Float q).
Proof.
  intros H. pose proof (H 0%nat ltac:(lia)). pose proof (H 1%nat ltac:(lia)). pose proof (H 2%nat ltac:(lia)).
  unfold rgb2gray, cast. cbn [sumn]. repeat split; intros; lra.
Qed.
Print Assumptions C99_gray.
(** For an integer type the weights are truncated to zero: every image becomes black. *)
Theorem C99_gray_refuted (rgb : nat -> R) : rgb2gray Int rgb = 0.
Proof. unfold rgb2gray, cast. cbn [sumn]. rewrite !trunc_unit by lra. ring. Qed.
Print Assumptions C99_gray_refuted.

(** Cases meeting the hypotheses. *)
Example C99_instance : rndmask Float (3 / 10) (1 / 10) = 0 /\ rndmask Float (3 / 10) (- 9 / 10) = 1 /\ spnoise Float (2 / 10) 0 1 (1 / 2) (- 95 / 100) = 0 /\
  1 <= rgb2gray Float (fun k => INR k + 1) <= 3.
Proof.
  split; [apply C99_mask; [lra|rewrite Rabs_right; lra]|]. split; [apply C99_mask; [lra|rewrite Rabs_left; lra]|].
  split; [apply (C99_noise (2 / 10) 0 1 (1 / 2)); lra|].
  apply (C99_gray 1 3). intros [|[|[|k]]] Hk; simpl; try lra. lia.
Qed.
