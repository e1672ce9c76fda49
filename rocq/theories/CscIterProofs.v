Require Import List Arith ZArith Reals Bool Lia Lra FunctionalExtensionality.
Require Import Verif.RVec Verif.Cplx Verif.FftModel Verif.FftProofs Verif.FftInv Verif.CscModel Verif.CscSpec Verif.CscProofs Verif.CscProps Verif.CscIterModel.
Require Import Verif.AdmmModel Verif.AdmmSpec Verif.AdmmProps Verif.StepsModel Verif.StepsSpec Verif.StepsProofs Verif.ProxModel.
Import ListNotations.
Local Open Scope R_scope.

(** ** Every local linear map has an adjoint *)
Lemma adjoint_exists n m L : linear_map L -> local_map n L -> exists LT, adjoint_of n m L LT.
Proof.
  intros HL Hl. exists (fun r i => sumn m (fun p => L (fun j => if Nat.eqb j i then 1 else 0) p * r p)). intros x r. unfold dot.
  transitivity (sumn m (fun p => sumn n (fun i => x i * L (fun j => if Nat.eqb j i then 1 else 0) p * r p))).
  - apply sumn_ext. intros p _. rewrite sumn_scal_r, <- linear_sum by exact HL. f_equal. apply Hl. intros i Hi. apply Nat.ltb_lt in Hi. rewrite Hi. reflexivity.
  - rewrite sumn_swap. apply sumn_ext. intros i _. rewrite <- sumn_scal. apply sumn_ext. intros. ring.
Qed.

(** ** Flattening *)
Section flattening.
Variable s : nat -> nat.
Lemma size_pos axes : (forall ax, In ax axes -> (0 < s ax)%nat) -> (0 < size s axes)%nat.
Proof. induction axes as [|a r IH]; intros H; simpl; [lia|]. pose proof (H a (or_introl eq_refl)). assert (0 < size s r)%nat by (apply IH; intros; apply H; right; assumption). nia. Qed.
Lemma sum_place axes : (forall ax, In ax axes -> (0 < s ax)%nat) -> forall f base, sumn (size s axes) (fun k => f (place s axes base k)) = total s axes f base.
Proof.
  induction axes as [|a r IH]; intros H f base; simpl; [ring|]. assert (P : (0 < size s r)%nat) by (apply size_pos; intros; apply H; right; assumption).
  rewrite sumn_flat by exact P. apply sumn_ext. intros j Hj. rewrite <- IH by (intros; apply H; right; assumption).
  apply sumn_ext. intros i Hi. rewrite div_at, mod_at by exact Hi. reflexivity.
Qed.
Definition on_slice (axes : list nat) (base p : index) : Prop :=
  (forall ax, In ax axes -> (p ax < s ax)%nat) /\ (forall ax, ~ In ax axes -> p ax = base ax).
Lemma place_other axes : forall base k ax, ~ In ax axes -> place s axes base k ax = base ax.
Proof.
  induction axes as [|a r IH]; intros base k ax H; simpl; [reflexivity|]. rewrite IH by (intros I; apply H; right; exact I).
  apply upd_other. intros ->. apply H. left. reflexivity.
Qed.
Lemma place_slice axes : NoDup axes -> (forall ax, In ax axes -> (0 < s ax)%nat) -> forall base k, (k < size s axes)%nat -> on_slice axes base (place s axes base k).
Proof.
  induction axes as [|a r IH]; intros ND H base k Hk.
  - split; [intros ? []|reflexivity].
  - inversion ND as [|? ? N1 N2]; subst. simpl in Hk. assert (P : (0 < size s r)%nat) by (apply size_pos; intros; apply H; right; assumption).
    destruct (IH N2 ltac:(intros; apply H; right; assumption) (upd base a (k / size s r)) (k mod size s r)) as [I1 I2]; [apply Nat.mod_upper_bound; lia|].
    split; intros ax Ha; simpl.
    + destruct Ha as [<-|Ha]; [|apply I1; exact Ha]. rewrite place_other by exact N1. rewrite upd_same. apply Nat.div_lt_upper_bound; lia.
    + rewrite place_other by (intros I; apply Ha; right; exact I). apply upd_other. intros ->. apply Ha. left. reflexivity.
Qed.
Lemma rank_lt axes : forall p, (forall ax, In ax axes -> (p ax < s ax)%nat) -> (rank s axes p < size s axes)%nat.
Proof.
  induction axes as [|a r IH]; intros p H; simpl; [lia|]. pose proof (IH p ltac:(intros; apply H; right; assumption)). pose proof (H a (or_introl eq_refl)). nia.
Qed.
Lemma rank_ext axes : forall p p', (forall ax, In ax axes -> p ax = p' ax) -> rank s axes p = rank s axes p'.
Proof. induction axes as [|a r IH]; intros p p' H; simpl; [reflexivity|]. rewrite (H a (or_introl eq_refl)), (IH p p') by (intros; apply H; right; assumption). reflexivity. Qed.
Lemma rank_place axes : NoDup axes -> (forall ax, In ax axes -> (0 < s ax)%nat) -> forall base k, (k < size s axes)%nat -> rank s axes (place s axes base k) = k.
Proof.
  induction axes as [|a r IH]; intros ND H base k Hk; simpl in *; [lia|]. inversion ND as [|? ? N1 N2]; subst.
  assert (P : (0 < size s r)%nat) by (apply size_pos; intros; apply H; right; assumption).
  rewrite IH; [|exact N2|intros; apply H; right; assumption|apply Nat.mod_upper_bound; lia]. rewrite place_other by exact N1. rewrite upd_same.
  rewrite (Nat.div_mod k (size s r)) at 3 by lia. lia.
Qed.
Lemma place_rank axes : NoDup axes -> forall base p, on_slice axes base p -> place s axes base (rank s axes p) = p.
Proof.
  induction axes as [|a r IH]; intros ND base p [H1 H2].
  - extensionality ax. symmetry. apply H2. intros [].
  - inversion ND as [|? ? N1 N2]; subst. simpl. pose proof (rank_lt r p ltac:(intros; apply H1; right; assumption)) as Hl.
    rewrite div_at, mod_at by exact Hl. apply IH; [exact N2|]. split; [intros; apply H1; right; assumption|].
    intros ax Ha. unfold upd. destruct (Nat.eqb_spec ax a) as [->|N]; [reflexivity|]. apply H2. intros [E|E]; [congruence|contradiction].
Qed.
Lemma total_ext axes : forall f g base, NoDup axes -> (forall p, on_slice axes base p -> f p = g p) -> total s axes f base = total s axes g base.
Proof.
  induction axes as [|a r IH]; intros f g base ND H; simpl; [apply H; split; [intros ? []|reflexivity]|]. inversion ND as [|? ? N1 N2]; subst.
  apply sumn_ext. intros j Hj. apply IH; [exact N2|]. intros p [P1 P2]. apply H. split; intros ax Ha.
  - destruct Ha as [<-|Ha]; [|apply P1; exact Ha]. rewrite P2 by exact N1. unfold set_at. rewrite Nat.eqb_refl. exact Hj.
  - rewrite P2 by (intros I; apply Ha; right; exact I). unfold set_at. destruct (Nat.eqb_spec ax a) as [->|N]; [|reflexivity]. exfalso. apply Ha. left. reflexivity.
Qed.
Lemma arr_flat axes base X m p : NoDup axes -> on_slice axes base p -> arr s axes (cs_flat s axes base X) m p = X m p.
Proof.
  intros ND Hp. unfold arr, cs_flat. pose proof (rank_lt axes p (proj1 Hp)) as Hl. rewrite div_at, mod_at by exact Hl. rewrite place_rank by assumption. reflexivity.
Qed.
End flattening.

(** ** The problem on one slice *)
Section slice.
Variables (s dsh : nat -> nat) (axes : list nat) (M Cd : nat) (D : nat -> nat -> index -> R) (S : nat -> index -> R) (q : quad) (base : index).
Hypothesis ND : NoDup axes.
Hypothesis Hne : axes <> [].
Hypothesis Hs : forall ax, In ax axes -> (0 < s ax)%nat.
Notation P := (size s axes).
Notation ons := (on_slice s axes base).

Lemma P_pos : (0 < P)%nat. Proof. apply size_pos. exact Hs. Qed.
Definition same (X X' : nat -> index -> R) : Prop := forall m p, (m < M)%nat -> ons p -> X m p = X' m p.
Lemma minus_slice p k : ons p -> ons (minus s axes p k).
Proof.
  intros [H1 H2]. split; intros ax Ha; unfold minus.
  - assert (E : existsb (Nat.eqb ax) axes = true) by (apply existsb_exists; exists ax; split; [exact Ha|apply Nat.eqb_refl]). rewrite E. apply Nat.mod_upper_bound. specialize (Hs ax Ha). lia.
  - assert (E : existsb (Nat.eqb ax) axes = false).
    { apply Bool.not_true_is_false. intros E. apply existsb_exists in E. destruct E as (b & Hb & Eb). apply Nat.eqb_eq in Eb. subst. contradiction. }
    rewrite E. apply H2. exact Ha.
Qed.
Lemma back_slice ax p : In ax axes -> ons p -> ons (back s ax p).
Proof.
  intros Hx [H1 H2]. unfold back, set_at. split; intros a Ha; destruct (Nat.eqb_spec a ax) as [->|N].
  - apply Nat.mod_upper_bound. specialize (Hs ax Hx). lia.
  - apply H1. exact Ha.
  - contradiction.
  - apply H2. exact Ha.
Qed.
Lemma synth_ext X X' c p : same X X' -> ons p -> synth s dsh axes M D X c p = synth s dsh axes M D X' c p.
Proof.
  intros E Hp. unfold synth, conv. apply sumn_ext. intros m Hm. apply total_ext; [exact ND|]. intros k _. f_equal. apply E; [exact Hm|]. apply minus_slice. exact Hp.
Qed.
Lemma sqn_ext f g : (forall p, ons p -> f p = g p) -> sqn s axes f base = sqn s axes g base.
Proof. intros H. apply total_ext; [exact ND|]. intros p Hp. rewrite H by exact Hp. reflexivity. Qed.
Lemma datafit_ext X X' : same X X' -> datafit s dsh axes M Cd D S X base = datafit s dsh axes M Cd D S X' base.
Proof. intros E. unfold datafit. f_equal. apply sumn_ext. intros c _. apply sqn_ext. intros p Hp. rewrite (synth_ext X X') by assumption. reflexivity. Qed.
Lemma near_ext rho Z X X' : same X X' -> near s axes M rho Z X base = near s axes M rho Z X' base.
Proof. intros E. unfold near. f_equal. apply sumn_ext. intros m Hm. apply sqn_ext. intros p Hp. rewrite (E m p Hm Hp). reflexivity. Qed.
Lemma quad_ext X X' : same X X' -> quad_term s axes M q X base = quad_term s axes M q X' base.
Proof.
  intros E. destruct q as [|mu|mu wg]; [reflexivity| |]; simpl.
  - unfold ridge_term. f_equal. apply sumn_ext. intros m Hm. apply sqn_ext. intros p Hp. apply E; assumption.
  - unfold grad_term. f_equal. apply sumn_ext. intros m Hm. f_equal. f_equal. apply map_ext_in. intros ax Ha. apply sqn_ext. intros p Hp. unfold diff.
    rewrite (E m p Hm Hp), (E m (back s ax p) Hm (back_slice ax p Ha Hp)). reflexivity.
Qed.
Definition prob_f (x : vec) : R := datafit s dsh axes M Cd D S (arr s axes x) base + quad_term s axes M q (arr s axes x) base.
Lemma sqn_flat (x : vec) : sqn s axes (fun p => x (rank s axes p)) base = nrm2 P x.
Proof.
  unfold sqn, nrm2, dot. rewrite <- sum_place by exact Hs. apply sumn_ext. intros k Hk. rewrite rank_place by assumption. reflexivity.
Qed.
Lemma near_flat rho z x : near s axes M rho (arr s axes z) (arr s axes x) base = rho / 2 * nrm2 (M * P) (fun i => x i - z i).
Proof.
  unfold near. f_equal. unfold nrm2, dot. rewrite sumn_flat by apply P_pos. apply sumn_ext. intros m _.
  change (sqn s axes (fun p => arr s axes x m p - arr s axes z m p) base) with (sqn s axes (fun p => (fun i => x (m * P + i)%nat - z (m * P + i)%nat) (rank s axes p)) base).
  rewrite sqn_flat. reflexivity.
Qed.
Lemma cs_x rho g y u : (0 < Cd)%nat -> 0 < rho -> quad_valid s axes M q ->
  argmin (fun _ => True) (fun x => auglag (M * P) eq_A eq_B eq_c rho prob_f g x y u) (cs_xstep s dsh axes M Cd D S q rho base y u).
Proof.
  intros HC Hr Hq. split; [exact I|]. intros x _.
  pose proof (C71_xstep s dsh axes M Cd D S q rho (arr s axes y) (arr s axes u) (arr s axes x) base ND Hne Hs HC Hr Hq) as H. cbv zeta in H.
  set (xs := xstep s dsh axes M Cd D S q rho (arr s axes y) (arr s axes u)) in *.
  assert (E : same xs (arr s axes (cs_xstep s dsh axes M Cd D S q rho base y u))) by (intros m p Hm Hp; symmetry; apply arr_flat; assumption).
  cbv beta in H. rewrite (datafit_ext _ _ E), (quad_ext _ _ E), (near_ext _ _ _ _ E) in H.
  change (fun m p => arr s axes y m p - arr s axes u m p) with (arr s axes (fun i => y i - u i)) in H. rewrite !near_flat in H.
  assert (N : 0 <= rho / 2 * sumn M (fun m => sqn s axes (fun p => arr s axes x m p - xs m p) base)).
  { apply Rmult_le_pos; [lra|]. apply sumn_nonneg. intros m _. rewrite sqn_rsum.
    assert (Nn : forall L h b, (forall i, 0 <= h i) -> 0 <= rsum s L h b).
    { clear. induction L as [|a L IH]; intros h b H; simpl; [apply H|]. apply sumn_nonneg. intros. apply IH. exact H. }
    apply Nn. intros. apply Rle_0_sqr. }
  unfold auglag, prob_f.
  assert (Q : forall x, nrm2 (M * P) (fun i => eq_A x i + eq_B y i - eq_c i + u i) = nrm2 (M * P) (fun i => x i - (y i - u i))) by (intros; apply nrm2_ext; intros; unfold eq_A, eq_B, eq_c; ring).
  rewrite !Q. lra.
Qed.

(** The smooth part as a least squares term plus a ridge. *)
Definition nG : nat := match q with QGrad _ _ => (M * length axes)%nat | _ => 0%nat end.
Definition q_mu : R := match q with QElastic mu => mu | _ => 0 end.
Definition gw (m : nat) : R := match q with QGrad mu wg => sqrt (mu * wg m) | _ => 0 end.
Definition Lop (x : vec) : vec := fun r =>
  let j := (r / P)%nat in let p := place s axes base (r mod P) in
  if Nat.ltb j Cd then synth s dsh axes M D (arr s axes x) j p
  else let t := (j - Cd)%nat in
       gw (t / length axes) * diff s (nth (t mod length axes) axes O) (arr s axes x (t / length axes)%nat) p.
Definition sv : vec := fun r => let j := (r / P)%nat in if Nat.ltb j Cd then S j (place s axes base (r mod P)) else 0.
Lemma total_lin L a f b g p : total s L (fun k => a * f k + b * g k) p = a * total s L f p + b * total s L g p.
Proof.
  revert p. induction L as [|x L IH]; intros p; simpl; [reflexivity|]. rewrite <- !sumn_scal, <- sumn_plus. apply sumn_ext. intros. apply IH.
Qed.
Lemma Lop_linear : linear_map Lop.
Proof.
  intros a x b y r. unfold Lop. cbv zeta. destruct (Nat.ltb (r / P) Cd).
  - unfold synth. rewrite <- !sumn_scal, <- sumn_plus. apply sumn_ext. intros m _. unfold conv. rewrite <- total_lin. f_equal. extensionality k. unfold arr. ring.
  - unfold diff, arr. ring.
Qed.
Lemma Lop_local : forall x y, (forall i, (i < M * P)%nat -> x i = y i) -> forall r, (r < (Cd + nG) * P)%nat -> Lop x r = Lop y r.
Proof.
  intros x y E r Hr. pose proof P_pos as HP.
  assert (Hj : (r / P < Cd + nG)%nat) by (apply Nat.div_lt_upper_bound; lia).
  assert (Sm : same (arr s axes x) (arr s axes y)).
  { intros m p Hm Hp. unfold arr. apply E. pose proof (rank_lt s axes p (proj1 Hp)). nia. }
  assert (Hp : ons (place s axes base (r mod P))) by (apply place_slice; try assumption; apply Nat.mod_upper_bound; lia).
  unfold Lop. cbv zeta. destruct (Nat.ltb_spec (r / P) Cd).
  - apply synth_ext; assumption.
  - unfold nG in Hj. destruct q as [|mu|mu wg]; try lia. assert (Ha : (0 < length axes)%nat) by (destruct axes; [congruence|simpl; lia]).
    assert (Hm : ((r / P - Cd) / length axes < M)%nat) by (apply Nat.div_lt_upper_bound; lia).
    unfold diff. f_equal. rewrite (Sm _ _ Hm Hp). f_equal. apply Sm; [exact Hm|]. apply back_slice; [|exact Hp]. apply nth_In. apply Nat.mod_upper_bound. lia.
Qed.
Lemma fold_nth (f : nat -> R) (L : list nat) : fold_right Rplus 0 (map f L) = sumn (length L) (fun a => f (nth a L O)).
Proof. induction L as [|a L IH]; [reflexivity|]. cbn [map fold_right length]. rewrite IH, sumn_first. reflexivity. Qed.
Lemma prob_f_sc x : quad_valid s axes M q -> prob_f x = sc_f (M * P) ((Cd + nG) * P) Lop sv q_mu x.
Proof.
  intros Hq. pose proof P_pos as HP. unfold prob_f, sc_f, lsq, nrm2, dot. rewrite sumn_flat by exact HP. rewrite sumn_split. rewrite Rmult_plus_distr_l, Rplus_assoc. f_equal.
  - unfold datafit. f_equal. apply sumn_ext. intros c Hc. unfold sqn. rewrite <- sum_place by exact Hs. apply sumn_ext. intros k Hk.
    unfold Lop, sv. cbv zeta. rewrite !div_at, !mod_at by exact Hk. apply Nat.ltb_lt in Hc. rewrite !Hc. reflexivity.
  - unfold nG, q_mu, ridge. destruct q as [|mu|mu wg] eqn:Eq; cbn [quad_term sumn].
    + lra.
    + unfold ridge_term, nrm2, dot. rewrite (sumn_flat P M) by exact HP. rewrite Rmult_0_r, Rplus_0_l. f_equal. apply sumn_ext. intros m _.
      exact (sqn_flat (fun i => x (m * P + i)%nat)).
    + assert (Ha : (0 < length axes)%nat) by (destruct axes; [congruence|simpl; lia]). rewrite (sumn_flat (length axes) M) by exact Ha.
      unfold grad_term. replace (mu / 2) with (/ 2 * mu) by lra. replace (0 / 2 * nrm2 (M * P) x) with 0 by lra. rewrite Rplus_0_r, Rmult_assoc. f_equal. rewrite <- sumn_scal. apply sumn_ext. intros m Hm.
      rewrite fold_nth, <- Rmult_assoc, <- sumn_scal. apply sumn_ext. intros a Hla. unfold sqn. rewrite <- sum_place by exact Hs. rewrite <- sumn_scal. apply sumn_ext. intros k Hk.
      unfold Lop, sv. cbv zeta. rewrite !div_at, !mod_at by exact Hk. assert (F : Nat.ltb (Cd + (m * length axes + a)) Cd = false) by (apply Nat.ltb_ge; lia). rewrite !F.
      replace (Cd + (m * length axes + a) - Cd)%nat with (m * length axes + a)%nat by lia. rewrite !div_at, !mod_at by exact Hla. unfold gw. rewrite Eq.
      destruct Hq as (Hmu & Hw & _). specialize (Hw m Hm). rewrite <- (sqrt_sqrt (mu * wg m)) at 1 by (apply Rmult_le_pos; assumption). ring.
Qed.
Lemma Lop_adjoint : exists LT, adjoint_of (M * P) ((Cd + nG) * P) Lop LT.
Proof.
  (* outside the rows of interest the operator is replaced by zero to make it local *)
  set (L' := fun x r => if Nat.ltb r ((Cd + nG) * P) then Lop x r else 0).
  destruct (adjoint_exists (M * P) ((Cd + nG) * P) L') as [LT H].
  - intros a x b y r. unfold L'. destruct (Nat.ltb r _); [apply Lop_linear|ring].
  - intros x y E r. unfold L'. destruct (Nat.ltb_spec r ((Cd + nG) * P)) as [Hr|]; [apply Lop_local; assumption|reflexivity].
  - exists LT. intros x r. rewrite <- H. unfold dot. apply sumn_ext. intros i Hi. unfold L'. apply Nat.ltb_lt in Hi. rewrite Hi. reflexivity.
Qed.
End slice.

(** ** The y step *)
Definition masked (n : nat) (z : nat -> bool) (nonneg : bool) (y : vec) : Prop :=
  nonneg_set nonneg n y /\ forall i, (i < n)%nat -> z i = true -> y i = 0.
Lemma masked_convex n z nn : forall x y t, masked n z nn x -> masked n z nn y -> 0 <= t <= 1 -> masked n z nn (seg x y t).
Proof.
  intros x y t [X1 X2] [Y1 Y2] Ht. split; [apply nonneg_convex; assumption|]. intros i Hi Hz. unfold seg. rewrite X2, Y2 by assumption. ring.
Qed.
Lemma cs_y n z nn lam rho wl1 ax u : 0 <= lam -> 0 < rho -> (forall i, (i < n)%nat -> 0 <= wl1 i) ->
  masked n z nn (cs_ystep z nn lam rho wl1 ax u) /\
  subgradient n (masked n z nn) (l1reg n lam wl1) (cs_ystep z nn lam rho wl1 ax u) (fun i => rho * (ax i + u i - cs_ystep z nn lam rho wl1 ax u i)).
Proof.
  intros Hl Hr Hw. destruct (bpdn_y n nn lam rho wl1 ax u Hl Hr Hw) as [B _]. split; [split|].
  - intros E i Hi. unfold cs_ystep. destruct (z i); [lra|]. apply B; assumption.
  - intros i Hi Hz. unfold cs_ystep. rewrite Hz. reflexivity.
  - intros y [Y1 Y2]. unfold l1reg, dot. rewrite <- !sumn_scal, <- sumn_plus. apply sumn_le. intros i Hi. unfold cs_ystep. destruct (z i) eqn:Hz.
    + rewrite (Y2 i Hi Hz). lra.
    + pose proof (bpdn_y 1 nn lam rho (fun _ => wl1 i) (fun _ => ax i) (fun _ => u i) Hl Hr ltac:(intros; apply Hw; exact Hi)) as [_ G].
      specialize (G (fun _ => y i) ltac:(intros E j _; apply Y1; assumption)). unfold l1reg, dot in G. cbn [sumn] in G.
      unfold bpdn_ystep, clip, prox_l1 in *. cbv beta in *. lra.
Qed.

(** ** The x step acts on each slice separately *)
Lemma rfftn_slice s axes f g i : axes <> [] -> (forall p, on_slice s axes i p -> f p = g p) -> rfftn s axes f i = rfftn s axes g i.
Proof.
  intros Hne H. destruct (exists_last Hne) as (r & l & ->). rewrite !rfftn_fftn. apply fftn_ext_in. intros p H1 H2. rewrite H; [reflexivity|]. split; assumption.
Qed.
Lemma irfftn_slice s axes f g i : NoDup axes -> axes <> [] -> on_slice s axes i i -> (forall p, on_slice s axes i p -> f p = g p) -> irfftn s axes f i = irfftn s axes g i.
Proof.
  intros ND Hne Hi H. destruct (exists_last Hne) as (r & l & ->). unfold irfftn. rewrite last_last, removelast_last.
  assert (Hl : (i l < s l)%nat) by (apply Hi; apply in_or_app; right; left; reflexivity).
  assert (Nl : ~ In l r) by (apply NoDup_remove_2 in ND; rewrite app_nil_r in ND; exact ND).
  apply irfft_ext; [lia|]. intros k Hk. apply ifftn_ext_in. intros p H1 H2. apply H. split; intros ax Ha.
  - apply in_app_or in Ha. destruct Ha as [Ha|[<-|[]]]; [apply H1; exact Ha|]. rewrite (H2 l Nl), upd_same.
    pose proof (Nat.div_lt (s l) 2). destruct (s l) as [|[|n]]; [lia|simpl in Hk; lia|lia].
  - rewrite H2 by (intros I; apply Ha; apply in_or_app; left; exact I). apply upd_other. intros ->. apply Ha. apply in_or_app. right. left. reflexivity.
Qed.
