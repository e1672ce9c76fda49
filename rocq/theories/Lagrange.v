(** Multipliers of convex inequality constraints under Slater's condition, and existence of constrained minimisers. *)
Require Import Reals Lra Lia Arith.
Require Import Verif.RVec Verif.AdmmSpec Verif.AdmmConv Verif.Compact Verif.StepsSpec Verif.StepsProofs Verif.LimitProofs.
Local Open Scope R_scope.
Local Notation vec := (nat -> R).

(** One constraint. *)
Lemma lagrange1 (E : vec -> Prop) F h v x0 : convex_on E F -> convex_on E h -> (forall x, E x -> h x <= 0 -> v <= F x) -> E x0 -> h x0 < 0 ->
  exists lam, 0 <= lam /\ forall x, E x -> v <= F x + lam * h x.
Proof.
  intros CF Ch Hv E0 S0.
  (* slopes at points which violate the constraint are below slopes at strictly feasible points *)
  assert (Cmp : forall x y, E x -> E y -> 0 < h x -> h y < 0 -> (v - F x) / h x <= (F y - v) / - h y).
  { intros x y Ex Ey Hx Hy. set (t := h x / (h x - h y)).
    assert (D0 : 0 < h x - h y) by lra.
    assert (Ht : 0 <= t <= 1).
    { unfold t. split; [apply Rmult_le_pos; [lra|left; apply Rinv_0_lt_compat; exact D0]|]. apply (Rmult_le_reg_r (h x - h y)); [exact D0|]. replace (h x / (h x - h y) * (h x - h y)) with (h x) by (field; lra). lra. }
    destruct (CF x y t Ex Ey Ht) as [Es Fs]. destruct (Ch x y t Ex Ey Ht) as [_ Hs].
    assert (Z : h x + t * (h y - h x) = 0) by (unfold t; field; lra). rewrite Z in Hs. specialize (Hv _ Es Hs).
    assert (Q : v * (h x - h y) <= F x * (- h y) + F y * h x).
    { assert (Q0 : v <= F x + t * (F y - F x)) by lra. apply (Rmult_le_compat_r (h x - h y)) in Q0; [|lra].
      replace ((F x + t * (F y - F x)) * (h x - h y)) with (F x * (- h y) + F y * h x) in Q0 by (unfold t; field; lra). exact Q0. }
    apply (Rmult_le_reg_r (h x)); [exact Hx|]. replace ((v - F x) / h x * h x) with (v - F x) by (field; lra).
    apply (Rmult_le_reg_r (- h y)); [lra|]. replace ((F y - v) / - h y * h x * - h y) with ((F y - v) * h x) by (field; lra). lra. }
  set (V := fun a => a = 0 \/ exists x, E x /\ 0 < h x /\ a = (v - F x) / h x).
  assert (P0 : 0 <= (F x0 - v) / - h x0).
  { apply Rmult_le_pos; [specialize (Hv x0 E0 ltac:(lra)); lra|]. left. apply Rinv_0_lt_compat. lra. }
  destruct (completeness V) as [lam [U1 U2]].
  { exists ((F x0 - v) / - h x0). intros a [->|(x & Ex & Hx & ->)]; [exact P0|]. apply Cmp; assumption. }
  { exists 0. left. reflexivity. }
  assert (L0 : 0 <= lam) by (apply U1; left; reflexivity). exists lam. split; [exact L0|]. intros x Ex.
  destruct (Rtotal_order (h x) 0) as [N|[Z|P]].
  - assert (Q : lam <= (F x - v) / - h x).
    { apply U2. intros a [->|(y & Ey & Hy & ->)]; [|apply Cmp; assumption]. apply Rmult_le_pos; [specialize (Hv x Ex ltac:(lra)); lra|]. left. apply Rinv_0_lt_compat. lra. }
    apply (Rmult_le_compat_r (- h x)) in Q; [|lra]. replace ((F x - v) / - h x * - h x) with (F x - v) in Q by (field; lra). lra.
  - rewrite Z, Rmult_0_r, Rplus_0_r. apply Hv; [exact Ex|lra].
  - assert (Q : (v - F x) / h x <= lam) by (apply U1; right; exists x; tauto). apply (Rmult_le_compat_r (h x)) in Q; [|lra].
    replace ((v - F x) / h x * h x) with (v - F x) in Q by (field; lra). lra.
Qed.
Lemma convex_sub E F (P : vec -> Prop) : convex_on E F -> (forall x y t, E x -> E y -> P x -> P y -> 0 <= t <= 1 -> P (seg x y t)) -> convex_on (fun x => E x /\ P x) F.
Proof. intros C H x y t [Ex Px] [Ey Py] Ht. destruct (C x y t Ex Ey Ht) as [Es Fs]. split; [split; [exact Es|apply H; assumption]|exact Fs]. Qed.
Lemma convex_combine E F h lam : 0 <= lam -> convex_on E F -> convex_on E h -> convex_on E (fun x => F x + lam * h x).
Proof.
  intros Hl CF Ch x y t Ex Ey Ht. destruct (CF x y t Ex Ey Ht) as [Es Fs]. destruct (Ch x y t Ex Ey Ht) as [_ Hs]. split; [exact Es|].
  apply (Rmult_le_compat_l lam) in Hs; [|exact Hl]. lra.
Qed.
(** Several constraints: they are moved into the objective one after the other. *)
Lemma lagrange K : forall (E : vec -> Prop) F (h : nat -> vec -> R) v x0, convex_on E F -> (forall j, (j < K)%nat -> convex_on E (h j)) ->
  (forall x, E x -> (forall j, (j < K)%nat -> h j x <= 0) -> v <= F x) -> E x0 -> (forall j, (j < K)%nat -> h j x0 < 0) ->
  exists lam : vec, (forall j, (j < K)%nat -> 0 <= lam j) /\ forall x, E x -> v <= F x + sumn K (fun j => lam j * h j x).
Proof.
  induction K as [|K IH]; intros E F h v x0 CF Ch Hv E0 S0.
  - exists (fun _ => 0). split; [intros; lia|]. intros x Ex. cbn [sumn]. rewrite Rplus_0_r. apply Hv; [exact Ex|intros; lia].
  - set (E' := fun x => E x /\ forall j, (j < K)%nat -> h j x <= 0).
    assert (Cs : forall x y t, E x -> E y -> (forall j, (j < K)%nat -> h j x <= 0) -> (forall j, (j < K)%nat -> h j y <= 0) -> 0 <= t <= 1 -> forall j, (j < K)%nat -> h j (seg x y t) <= 0).
    { intros x y t Ex Ey Hx Hy Ht j Hj. destruct (Ch j ltac:(lia) x y t Ex Ey Ht) as [_ Q]. specialize (Hx j Hj). specialize (Hy j Hj). nra. }
    destruct (lagrange1 E' F (h K) v x0) as (lK & HlK & VK).
    { apply (convex_sub E F _ CF Cs). }
    { apply (convex_sub E (h K) _ (Ch K ltac:(lia)) Cs). }
    { intros x [Ex Hx] HK. apply Hv; [exact Ex|]. intros j Hj. destruct (Nat.eq_dec j K) as [->|N]; [exact HK|apply Hx; lia]. }
    { split; [exact E0|]. intros j Hj. left. apply S0. lia. }
    { apply S0. lia. }
    destruct (IH E (fun x => F x + lK * h K x) h v x0) as (lam & Hl & V).
    { apply convex_combine; [exact HlK|exact CF|apply Ch; lia]. }
    { intros j Hj. apply Ch. lia. }
    { intros x Ex Hx. apply VK. split; assumption. }
    { exact E0. }
    { intros j Hj. apply S0. lia. }
    exists (fun j => if Nat.eqb j K then lK else lam j). split.
    + intros j Hj. destruct (Nat.eqb_spec j K) as [->|N]; [exact HlK|apply Hl; lia].
    + intros x Ex. specialize (V x Ex). cbn [sumn]. rewrite Nat.eqb_refl. rewrite (sumn_ext K _ (fun j => lam j * h j x)); [lra|].
      intros j Hj. destruct (Nat.eqb_spec j K); [lia|reflexivity].
Qed.

(** Positive part. *)
Lemma lip_pos n F : loc_lip n F -> loc_lip n (fun x => Rmax (F x) 0).
Proof.
  intros HF r Hr. destruct (HF r Hr) as (K & HK & LF). exists K. split; [exact HK|]. intros x y Hx Hy. eapply Rle_trans; [|apply LF; assumption].
  unfold Rmax. destruct (Rle_dec (F x) 0); destruct (Rle_dec (F y) 0); unfold Rabs; repeat destruct (Rcase_abs _); lra.
Qed.
(** A coercive function attains its minimum under finitely many constraints that can be met. *)
Lemma constrained_min n E F a b K (h : nat -> vec -> R) x0 : boxes n E -> loc_lip n F -> (forall j, (j < K)%nat -> loc_lip n (h j)) -> 0 < a ->
  (forall x, E x -> a * sumn n (fun i => Rabs (x i)) - b <= F x) -> E x0 -> (forall j, (j < K)%nat -> h j x0 <= 0) ->
  exists p, argmin (fun x => E x /\ forall j, (j < K)%nat -> h j x <= 0) F p.
Proof.
  intros HE HF Hh Ha Hc E0 S0. set (P := fun x => E x /\ forall j, (j < K)%nat -> h j x <= 0).
  set (r := Rmax 0 ((F x0 + b) / a)). assert (Hr : 0 <= r) by apply Rmax_l.
  assert (Out : forall x, E x -> ~ within n r x -> F x0 <= F x).
  { intros x Ex W. destruct (classic_within n r x) as [Q|(i & Hi & Q)]; [contradiction|].
    specialize (Hc x Ex). pose proof (sumn_ge_term n (fun i => Rabs (x i)) i (fun j _ => Rabs_pos _) Hi) as S. cbv beta in S.
    assert (G : (F x0 + b) / a < Rabs (x i)) by (eapply Rle_lt_trans; [apply Rmax_r|exact Q]).
    assert (F x0 + b < a * Rabs (x i)) by (apply (Rmult_lt_reg_r (/ a)); [apply Rinv_0_lt_compat; exact Ha|]; replace (a * Rabs (x i) * / a) with (Rabs (x i)) by (field; lra); exact G).
    assert (a * Rabs (x i) <= a * sumn n (fun i => Rabs (x i))) by (apply Rmult_le_compat_l; lra). lra. }
  (* the infimum of the values *)
  set (V := fun w => exists x, P x /\ w = - F x).
  destruct (completeness V) as [s [U1 U2]].
  { exists b. intros w (x & [Ex _] & ->). specialize (Hc x Ex). assert (0 <= a * sumn n (fun i => Rabs (x i))) by (apply Rmult_le_pos; [lra|apply sumn_nonneg; intros; apply Rabs_pos]). lra. }
  { exists (- F x0). exists x0. split; [split; assumption|reflexivity]. }
  assert (Lo : forall x, P x -> - s <= F x) by (intros x Px; assert (- F x <= s) by (apply U1; exists x; split; [exact Px|reflexivity]); lra).
  set (Psi := fun x => sumn K (fun j => Rmax (h j x) 0) + Rmax (F x + s) 0).
  assert (LP : loc_lip n Psi).
  { unfold Psi. apply lip_plus; [apply (lip_sumn n K (fun j x => Rmax (h j x) 0)); intros j Hj; apply lip_pos; apply Hh; exact Hj|]. apply lip_pos. apply lip_plus; [exact HF|apply lip_const]. }
  assert (Sp : forall x, 0 <= sumn K (fun j => Rmax (h j x) 0)) by (intros x; apply sumn_nonneg; intros; apply Rmax_r).
  assert (Small : forall x, P x -> Psi x = F x + s).
  { intros x Px. unfold Psi. rewrite (sumn_ext K _ (fun _ => 0)) by (intros j Hj; apply Rmax_right; apply Px; exact Hj).
    assert (Z : forall k, sumn k (fun _ => 0) = 0) by (intros k; induction k as [|k IH]; cbn [sumn]; [reflexivity|rewrite IH; ring]). rewrite Z.
    rewrite Rmax_left by (specialize (Lo x Px); lra). ring. }
  destruct (Req_dec (F x0) (- s)) as [Q|Q].
  { exists x0. split; [split; assumption|]. intros x Px. rewrite Q. apply Lo. exact Px. }
  assert (L0 : - s < F x0) by (specialize (Lo x0 (conj E0 S0)); lra).
  destruct (HE r Hr) as (lo & hi & B & X). destruct (LP r Hr) as (Kp & HKp & Lp).
  destruct (box_min n lo hi Kp Psi HKp B) as [p [P1 P2]].
  { intros x y Hx Hy. apply X in Hx. apply X in Hy. apply Lp; tauto. }
  apply X in P1. destruct P1 as [Ep Wp].
  assert (Z : Psi p <= 0).
  { destruct (Rle_or_lt (Psi p) 0) as [G|G]; [exact G|]. exfalso.
    set (e := Rmin (Psi p) (F x0 + s)). assert (He : 0 < e) by (apply Rmin_pos; lra).
    assert (NU : ~ is_upper_bound V (s - e)) by (intros Ub; specialize (U2 _ Ub); lra).
    apply NU. intros w (x & Px & ->). destruct (Rle_or_lt (- F x) (s - e)) as [G2|G2]; [exact G2|exfalso].
    destruct (classic_within n r x) as [W|(i & Hi & Wi)].
    - specialize (P2 x). rewrite (Small x Px) in P2. assert (Bx : box n lo hi x) by (apply X; split; [apply Px|exact W]). specialize (P2 Bx).
      assert (e <= Psi p) by apply Rmin_l. lra.
    - assert (Wn : ~ within n r x) by (intros W; specialize (W i Hi); lra). specialize (Out x (proj1 Px) Wn). assert (e <= F x0 + s) by apply Rmin_r. lra. }
  assert (Zs : sumn K (fun j => Rmax (h j p) 0) <= 0 /\ Rmax (F p + s) 0 <= 0) by (unfold Psi in Z; specialize (Sp p); pose proof (Rmax_r (F p + s) 0); lra).
  assert (Pp : P p).
  { split; [exact Ep|]. intros j Hj. pose proof (sumn_ge_term K (fun j => Rmax (h j p) 0) j (fun i _ => Rmax_r _ _) Hj) as Q1. cbv beta in Q1. pose proof (Rmax_l (h j p) 0). lra. }
  exists p. split; [exact Pp|]. intros x Px. specialize (Lo x Px). pose proof (Rmax_l (F p + s) 0). lra.
Qed.
