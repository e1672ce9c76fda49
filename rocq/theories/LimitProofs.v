(** Existence of minimisers of the sparse coding objectives, and convergence of the iterates of their ADMM solvers. *)
Require Import Reals Lra Lia Arith FunctionalExtensionality.
Require Import Verif.RVec Verif.ProxModel Verif.AdmmModel Verif.AdmmSpec Verif.AdmmProofs Verif.AdmmConv Verif.AdmmProps Verif.Compact Verif.AdmmLimit.
Require Import Verif.StepsModel Verif.StepsSpec Verif.StepsProofs.
Local Open Scope R_scope.
Local Notation vec := (nat -> R).

(** ** Lipschitz functions on a bounded set *)
Definition within (n : nat) (r : R) (x : vec) : Prop := forall i, (i < n)%nat -> Rabs (x i) <= r.
Definition dist1 (n : nat) (x y : vec) : R := sumn n (fun i => Rabs (x i - y i)).
Definition loc_lip (n : nat) (F : vec -> R) : Prop := forall r, 0 <= r -> exists K, 0 <= K /\ forall x y, within n r x -> within n r y -> Rabs (F x - F y) <= K * dist1 n x y.
Lemma dist1_nonneg n x y : 0 <= dist1 n x y.
Proof. apply sumn_nonneg. intros. apply Rabs_pos. Qed.
Lemma lip_plus n F G : loc_lip n F -> loc_lip n G -> loc_lip n (fun x => F x + G x).
Proof.
  intros HF HG r Hr. destruct (HF r Hr) as (K & HK & LF). destruct (HG r Hr) as (K' & HK' & LG). exists (K + K'). split; [lra|]. intros x y Hx Hy.
  specialize (LF x y Hx Hy). specialize (LG x y Hx Hy). replace (F x + G x - (F y + G y)) with ((F x - F y) + (G x - G y)) by ring.
  pose proof (Rabs_triang (F x - F y) (G x - G y)). lra.
Qed.
Lemma lip_scal n a F : loc_lip n F -> loc_lip n (fun x => a * F x).
Proof.
  intros HF r Hr. destruct (HF r Hr) as (K & HK & LF). exists (Rabs a * K). split; [apply Rmult_le_pos; [apply Rabs_pos|exact HK]|]. intros x y Hx Hy.
  specialize (LF x y Hx Hy). replace (a * F x - a * F y) with (a * (F x - F y)) by ring. rewrite Rabs_mult, Rmult_assoc. apply Rmult_le_compat_l; [apply Rabs_pos|exact LF].
Qed.
Lemma lip_const n a : loc_lip n (fun _ => a).
Proof. intros r _. exists 0. split; [lra|]. intros. rewrite Rminus_diag_eq, Rabs_R0 by reflexivity. lra. Qed.
Lemma lip_sumn n m (F : nat -> vec -> R) : (forall i, (i < m)%nat -> loc_lip n (F i)) -> loc_lip n (fun x => sumn m (fun i => F i x)).
Proof.
  induction m as [|m IH]; intros H; cbn [sumn]; [apply lip_const|]. apply lip_plus; [apply IH; intros; apply H; lia|apply H; lia].
Qed.
Lemma lip_coord n i : (i < n)%nat -> loc_lip n (fun x => x i).
Proof.
  intros Hi r _. exists 1. split; [lra|]. intros x y _ _. rewrite Rmult_1_l. apply (sumn_ge_term n (fun j => Rabs (x j - y j)) i); [intros; apply Rabs_pos|exact Hi].
Qed.
Lemma lip_abs n F : loc_lip n F -> loc_lip n (fun x => Rabs (F x)).
Proof.
  intros HF r Hr. destruct (HF r Hr) as (K & HK & LF). exists K. split; [exact HK|]. intros x y Hx Hy. eapply Rle_trans; [apply Rabs_triang_inv2|]. auto.
Qed.
Lemma zero_within n r : 0 <= r -> within n r (fun _ => 0).
Proof. intros H i _. rewrite Rabs_R0. exact H. Qed.
Lemma dist_zero n r x : within n r x -> dist1 n x (fun _ => 0) <= INR n * r.
Proof.
  unfold dist1. induction n as [|n IH]; intros H; cbn [sumn].
  - simpl. lra.
  - rewrite S_INR. assert (H' : within n r x) by (intros i Hi; apply H; lia). specialize (IH H'). specialize (H n ltac:(lia)). rewrite Rminus_0_r. lra.
Qed.
Lemma lip_bounded n F r : 0 <= r -> loc_lip n F -> exists b, 0 <= b /\ forall x, within n r x -> Rabs (F x) <= b.
Proof.
  intros Hr HF. destruct (HF r Hr) as (K & HK & LF). exists (Rabs (F (fun _ => 0)) + K * (INR n * r)).
  assert (P : 0 <= K * (INR n * r)) by (apply Rmult_le_pos; [exact HK|apply Rmult_le_pos; [apply pos_INR|exact Hr]]). pose proof (Rabs_pos (F (fun _ => 0))).
  split; [lra|]. intros x Hx. specialize (LF x _ Hx (zero_within n r Hr)). pose proof (dist_zero n r x Hx) as Q.
  pose proof (Rabs_triang (F x - F (fun _ => 0)) (F (fun _ => 0))) as T. replace (F x - F (fun _ => 0) + F (fun _ => 0)) with (F x) in T by ring.
  assert (K * dist1 n x (fun _ => 0) <= K * (INR n * r)) by (apply Rmult_le_compat_l; assumption). lra.
Qed.
Lemma lip_mult n F G : loc_lip n F -> loc_lip n G -> loc_lip n (fun x => F x * G x).
Proof.
  intros HF HG r Hr. destruct (HF r Hr) as (K & HK & LF). destruct (HG r Hr) as (K' & HK' & LG).
  destruct (lip_bounded n F r Hr HF) as (b & Hb & Bf). destruct (lip_bounded n G r Hr HG) as (b' & Hb' & Bg).
  exists (b * K' + b' * K). split; [assert (0 <= b * K') by (apply Rmult_le_pos; assumption); assert (0 <= b' * K) by (apply Rmult_le_pos; assumption); lra|].
  intros x y Hx Hy. specialize (LF x y Hx Hy). specialize (LG x y Hx Hy). specialize (Bf x Hx). specialize (Bg y Hy).
  replace (F x * G x - F y * G y) with (F x * (G x - G y) + G y * (F x - F y)) by ring. eapply Rle_trans; [apply Rabs_triang|]. rewrite !Rabs_mult.
  assert (Rabs (F x) * Rabs (G x - G y) <= b * (K' * dist1 n x y)) by (apply Rmult_le_compat; auto using Rabs_pos).
  assert (Rabs (G y) * Rabs (F x - F y) <= b' * (K * dist1 n x y)) by (apply Rmult_le_compat; auto using Rabs_pos). lra.
Qed.
Lemma lip_ext_fun n F G : (forall x, F x = G x) -> loc_lip n F -> loc_lip n G.
Proof. intros E H. replace G with F; [exact H|]. extensionality x. apply E. Qed.
Lemma lip_linear n m L i : linear_map L -> (forall x y, (forall i, (i < n)%nat -> x i = y i) -> forall p, (p < m)%nat -> L x p = L y p) -> (i < m)%nat -> loc_lip n (fun x => L x i).
Proof.
  intros HL Hl Hi. apply (lip_ext_fun n (fun x => sumn n (fun j => x j * L (fun k => if Nat.eqb k j then 1 else 0) i))).
  - intros x. rewrite (Hl x (fun j => if Nat.ltb j n then x j else 0)) by (try exact Hi; intros j Hj; apply Nat.ltb_lt in Hj; rewrite Hj; reflexivity).
    rewrite linear_sum by exact HL. reflexivity.
  - apply lip_sumn. intros j Hj. apply lip_mult; [apply lip_coord; exact Hj|apply lip_const].
Qed.
Lemma lip_nrm2 n m (F : vec -> nat -> R) : (forall i, (i < m)%nat -> loc_lip n (fun x => F x i)) -> loc_lip n (fun x => nrm2 m (F x)).
Proof. intros H. unfold nrm2, dot. apply (lip_sumn n m (fun i x => F x i * F x i)). intros i Hi. apply lip_mult; apply H; exact Hi. Qed.
Lemma lip_l1reg n lam w : loc_lip n (l1reg n lam w).
Proof.
  unfold l1reg. apply lip_scal. apply (lip_sumn n n (fun i x => Rabs (w i * x i))). intros i Hi. apply lip_abs. apply lip_scal. apply lip_coord. exact Hi.
Qed.
Lemma lip_lsq n m L s : linear_map L -> (forall x y, (forall i, (i < n)%nat -> x i = y i) -> forall p, (p < m)%nat -> L x p = L y p) -> loc_lip n (lsq m L s).
Proof.
  intros HL Hl. unfold lsq. apply lip_scal. apply (lip_nrm2 n m (fun x i => L x i - s i)). intros i Hi.
  apply (lip_ext_fun n (fun x => L x i + - s i)); [intros; ring|]. apply lip_plus; [apply (lip_linear n m L i HL Hl Hi)|apply lip_const].
Qed.
Lemma lip_ridge n mu : loc_lip n (ridge n mu).
Proof. unfold ridge. apply lip_scal. apply (lip_nrm2 n n (fun x => x)). intros i Hi. apply lip_coord. exact Hi. Qed.

(** Locally Lipschitz functions are continuous along coordinatewise convergent sequences. *)
Lemma cv_bounded u l : Un_cv u l -> exists b, 0 <= b /\ forall k, Rabs (u k) <= b.
Proof.
  intros H. destruct (maj_by_pos u (exist _ l H)) as [b [Hb Hu]]. exists b. split; [lra|exact Hu].
Qed.
Lemma cv_within n (x : nat -> vec) l : (forall i, (i < n)%nat -> Un_cv (fun k => x k i) (l i)) -> exists r, 0 <= r /\ (forall k, within n r (x k)) /\ within n r l.
Proof.
  induction n as [|n IH]; intros H.
  - exists 0. split; [lra|]. split; intros; intros i Hi; lia.
  - destruct IH as (r & Hr & R1 & R2); [intros; apply H; lia|]. destruct (cv_bounded _ _ (H n ltac:(lia))) as (b & Hb & Bb).
    exists (r + b + Rabs (l n)). pose proof (Rabs_pos (l n)). split; [lra|]. split.
    + intros k i Hi. destruct (Nat.eq_dec i n) as [->|N]; [specialize (Bb k); lra|]. specialize (R1 k i ltac:(lia)). lra.
    + intros i Hi. destruct (Nat.eq_dec i n) as [->|N]; [lra|]. specialize (R2 i ltac:(lia)). lra.
Qed.
Lemma lip_cv n F (x : nat -> vec) l : loc_lip n F -> (forall i, (i < n)%nat -> Un_cv (fun k => x k i) (l i)) -> Un_cv (fun k => F (x k)) (F l).
Proof.
  intros HF H. destruct (cv_within n x l H) as (r & Hr & R1 & R2). destruct (HF r Hr) as (K & HK & LF).
  assert (Z : Un_cv (fun k => K * dist1 n (x k) l) 0).
  { apply cv_scal_0. replace 0 with (sumn n (fun _ => 0)) by (clear; induction n; cbn [sumn]; [reflexivity|rewrite IHn; ring]). unfold dist1.
    apply (cv_sumn n (fun k i => Rabs (x k i - l i))). intros i Hi. specialize (H i Hi). intros e He. destruct (H e He) as [N HN]. exists N. intros k Hk. specialize (HN k Hk).
    unfold R_dist in *. rewrite Rminus_0_r, Rabs_Rabsolu. exact HN. }
  intros e He. destruct (Z e He) as [N HN]. exists N. intros k Hk. specialize (HN k Hk). unfold R_dist in *. rewrite Rminus_0_r in HN.
  eapply Rle_lt_trans; [apply LF; auto|]. eapply Rle_lt_trans; [apply Rle_abs|exact HN].
Qed.

(** ** Existence of a minimiser *)
(** The part of the set inside a cube is a box. *)
Definition boxes (n : nat) (E : vec -> Prop) : Prop := forall r, 0 <= r -> exists lo hi, (forall i, (i < n)%nat -> lo i <= hi i) /\ forall x, box n lo hi x <-> E x /\ within n r x.
Lemma classic_within n r x : within n r x \/ exists i, (i < n)%nat /\ r < Rabs (x i).
Proof.
  induction n as [|n IH]; [left; intros i Hi; lia|]. destruct IH as [W|(i & Hi & Q)]; [|right; exists i; split; [lia|exact Q]].
  destruct (Rle_or_lt (Rabs (x n)) r) as [L|L]; [left|right; exists n; split; [lia|exact L]]. intros i Hi. destruct (Nat.eq_dec i n) as [->|N]; [exact L|apply W; lia].
Qed.
Lemma coercive_min n E F a b : boxes n E -> loc_lip n F -> 0 < a -> (forall x, E x -> a * sumn n (fun i => Rabs (x i)) - b <= F x) -> exists p, argmin E F p.
Proof.
  intros HE HF Ha Hc. destruct (HE 0 ltac:(lra)) as (lo0 & hi0 & B0 & X0).
  assert (E0 : E lo0 /\ within n 0 lo0) by (apply X0; intros i Hi; split; [lra|apply B0; exact Hi]).
  set (r := Rmax 0 ((F lo0 + b) / a)). assert (Hr : 0 <= r) by apply Rmax_l.
  destruct (HE r Hr) as (lo & hi & B & X). destruct (HF r Hr) as (K & HK & LF).
  destruct (box_min n lo hi K F HK B) as [p [P1 P2]].
  { intros x y Hx Hy. apply X in Hx. apply X in Hy. apply LF; tauto. }
  exists p. split; [apply X in P1; tauto|]. intros x Hx.
  destruct (classic_within n r x) as [W|(i & Hi & Wi)].
  - apply P2. apply X. tauto.
  - assert (Q : F p <= F lo0) by (apply P2; apply X; split; [tauto|]; intros j Hj; eapply Rle_trans; [apply E0; exact Hj|exact Hr]).
    specialize (Hc x Hx). pose proof (sumn_ge_term n (fun i => Rabs (x i)) i (fun j _ => Rabs_pos _) Hi) as S. cbv beta in S.
    assert ((F lo0 + b) / a < Rabs (x i)) by (eapply Rle_lt_trans; [apply Rmax_r|exact Wi]).
    assert (F lo0 + b < a * Rabs (x i)) by (apply (Rmult_lt_reg_r (/ a)); [apply Rinv_0_lt_compat; exact Ha|]; replace (a * Rabs (x i) * / a) with (Rabs (x i)) by (field; lra); exact H).
    assert (a * Rabs (x i) <= a * sumn n (fun i => Rabs (x i))) by (apply Rmult_le_compat_l; lra). lra.
Qed.

(** ** Closed sets *)
Definition closed (n : nat) (E : vec -> Prop) : Prop := forall (y : nat -> vec) l, (forall k, E (y k)) -> (forall i, (i < n)%nat -> Un_cv (fun k => y k i) (l i)) -> E l.
Lemma closed_true n : closed n (fun _ => True).
Proof. intros y l _ _. exact I. Qed.
Lemma closed_level n F b : loc_lip n F -> closed n (fun x => F x <= b).
Proof. intros HF y l H C. exact (cv_le _ _ _ _ H (lip_cv n F y l HF C) (cv_const b)). Qed.
Lemma closed_all n (I : Type) (P : I -> Prop) (E : I -> vec -> Prop) : (forall j, P j -> closed n (E j)) -> closed n (fun x => forall j, P j -> E j x).
Proof. intros H y l Hy C j Pj. apply (H j Pj y l); [intros; apply Hy; exact Pj|exact C]. Qed.
Lemma closed_and n E G : closed n E -> closed n G -> closed n (fun x => E x /\ G x).
Proof. intros HE HG y l H C. split; [apply (HE y l)|apply (HG y l)]; try exact C; intros; apply H. Qed.
Lemma closed_nonneg n nn : closed n (nonneg_set nn n).
Proof.
  intros y l H C Hn i Hi. refine (cv_le (fun _ => 0) (fun k => y k i) 0 (l i) _ (cv_const 0) (C i Hi)). intros k. apply (H k Hn i Hi).
Qed.
Lemma boxes_nonneg n nn : boxes n (nonneg_set nn n).
Proof.
  intros r Hr. exists (fun _ => if nn then 0 else - r), (fun _ => r). split; [intros; destruct nn; lra|]. intros x. split.
  - intros H. split; [intros E i Hi; specialize (H i Hi); rewrite E in H; lra|]. intros i Hi. specialize (H i Hi). apply Rabs_le. destruct nn; lra.
  - intros [H1 H2] i Hi. specialize (H2 i Hi). pose proof (Rle_abs (x i)). pose proof (Rle_abs (- x i)) as Q. rewrite Rabs_Ropp in Q. destruct nn; [specialize (H1 eq_refl i Hi)|]; lra.
Qed.
Lemma min_weight n (w : vec) : (forall i, (i < n)%nat -> 0 < w i) -> exists a, 0 < a /\ forall i, (i < n)%nat -> a <= w i.
Proof.
  induction n as [|n IH]; intros H; [exists 1; split; [lra|intros; lia]|]. destruct IH as (a & Ha & B); [intros; apply H; lia|].
  exists (Rmin a (w n)). split; [apply Rmin_pos; [exact Ha|apply H; lia]|]. intros i Hi. destruct (Nat.eq_dec i n) as [->|N]; [apply Rmin_r|].
  eapply Rle_trans; [apply Rmin_l|]. apply B. lia.
Qed.
Lemma l1_coercive n lam w : 0 < lam -> (forall i, (i < n)%nat -> 0 < w i) -> exists a, 0 < a /\ forall x, a * sumn n (fun i => Rabs (x i)) <= l1reg n lam w x.
Proof.
  intros Hl Hw. destruct (min_weight n w Hw) as (a & Ha & B). exists (lam * a). split; [apply Rmult_lt_0_compat; assumption|]. intros x. unfold l1reg.
  rewrite Rmult_assoc. apply Rmult_le_compat_l; [lra|]. rewrite <- sumn_scal. apply sumn_le. intros i Hi. rewrite Rabs_mult. apply Rmult_le_compat_r; [apply Rabs_pos|].
  rewrite Rabs_pos_eq by (left; apply Hw; exact Hi). apply B. exact Hi.
Qed.
Lemma ridge_coercive n mu : 0 < mu -> exists a b, 0 < a /\ forall x, a * sumn n (fun i => Rabs (x i)) - b <= ridge n mu x.
Proof.
  intros Hm. exists mu, (mu / 2 * sumn n (fun _ => 1)). split; [lra|]. intros x. unfold ridge, nrm2, dot. rewrite <- !sumn_scal, <- sumn_minus. apply sumn_le. intros i _.
  pose proof (Rle_0_sqr (Rabs (x i) - 1)) as Q. unfold Rsqr in Q. assert (S : Rabs (x i) * Rabs (x i) = x i * x i) by (rewrite <- Rabs_mult; apply Rabs_pos_eq; apply Rle_0_sqr). nra.
Qed.
(** A regularised least squares objective has a minimiser if the l1 term has positive weights or there is a ridge term. *)
Lemma sc_exists n m L s mu lam w E : linear_map L -> (forall x y, (forall i, (i < n)%nat -> x i = y i) -> forall p, (p < m)%nat -> L x p = L y p) ->
  0 <= mu -> 0 <= lam -> boxes n E -> (0 < lam /\ (forall i, (i < n)%nat -> 0 < w i)) \/ 0 < mu ->
  exists p, argmin E (fun x => sc_f n m L s mu x + l1reg n lam w x) p.
Proof.
  intros HL Hl Hm Hla HE H.
  assert (LF : loc_lip n (fun x => sc_f n m L s mu x + l1reg n lam w x)).
  { apply lip_plus; [|apply lip_l1reg]. unfold sc_f. apply lip_plus; [apply (lip_lsq n m L s HL Hl)|apply lip_ridge]. }
  assert (P1 : forall x, 0 <= lsq m L s x) by (intros x; unfold lsq; pose proof (nrm2_nonneg m (fun i => L x i - s i)); lra).
  assert (P2 : forall x, 0 <= ridge n mu x) by (intros x; unfold ridge; pose proof (nrm2_nonneg n x); nra).
  assert (P3 : forall x, 0 <= l1reg n lam w x) by (intros x; unfold l1reg; apply Rmult_le_pos; [exact Hla|]; apply sumn_nonneg; intros; apply Rabs_pos).
  destruct H as [[Hl0 Hw]|Hm0].
  - destruct (l1_coercive n lam w Hl0 Hw) as (a & Ha & Ba). apply (coercive_min n E _ a 0 HE LF Ha). intros x _. unfold sc_f. specialize (Ba x). specialize (P1 x). specialize (P2 x). lra.
  - destruct (ridge_coercive n mu Hm0) as (a & b & Ha & Ba). apply (coercive_min n E _ a b HE LF Ha). intros x _. unfold sc_f. specialize (Ba x). specialize (P1 x). specialize (P3 x). lra.
Qed.

Lemma lip_nrm k m (F : vec -> nat -> R) : (forall i, (i < m)%nat -> loc_lip k (fun x => F x i)) -> loc_lip k (fun x => nrm m (F x)).
Proof.
  intros H. assert (HS : forall r, 0 <= r -> exists K, 0 <= K /\ forall x y, within k r x -> within k r y -> sumn m (fun i => Rabs (F x i - F y i)) <= K * dist1 k x y).
  { intros r Hr. clear - H Hr. induction m as [|m IH].
    - exists 0. split; [lra|]. intros x y _ _. cbn [sumn]. lra.
    - destruct IH as (K & HK & B); [intros; apply H; lia|]. destruct (H m ltac:(lia) r Hr) as (K' & HK' & B').
      exists (K + K'). split; [lra|]. intros x y Hx Hy. cbn [sumn]. specialize (B x y Hx Hy). specialize (B' x y Hx Hy). lra. }
  intros r Hr. destruct (HS r Hr) as (K & HK & B). exists K. split; [exact HK|]. intros x y Hx Hy. eapply Rle_trans; [|apply (B x y Hx Hy)].
  assert (T : forall a b : vec, nrm m a - nrm m b <= sumn m (fun i => Rabs (a i - b i))).
  { intros a b. pose proof (nrm_triang m b (fun i => a i - b i)) as Q. rewrite (nrm_ext m _ a) in Q by (intros; unfold vadd; ring).
    assert (N1 : forall d : vec, nrm m d <= sumn m (fun i => Rabs (d i))).
    { intros d. set (s := sumn m (fun i => Rabs (d i))). assert (0 <= s) by (apply sumn_nonneg; intros; apply Rabs_pos).
      assert (nrm2 m d <= s * s).
      { unfold nrm2, dot, s. clear. induction m as [|m IH]; cbn [sumn]; [lra|]. assert (0 <= sumn m (fun i => Rabs (d i))) by (apply sumn_nonneg; intros; apply Rabs_pos).
        pose proof (Rabs_pos (d m)). assert (d m * d m = Rabs (d m) * Rabs (d m)) by (rewrite <- Rabs_mult; symmetry; apply Rabs_pos_eq; nra). nra. }
      rewrite <- nrm_sqr in H1. pose proof (nrm_nonneg m d). nra. }
    specialize (N1 (fun i => a i - b i)). lra. }
  apply Rabs_le. split; [|apply T]. specialize (T (F y) (F x)).
  rewrite (sumn_ext m (fun i => Rabs (F y i - F x i)) (fun i => Rabs (F x i - F y i))) in T by (intros; apply Rabs_minus_sym). lra.
Qed.
Lemma boxes_true k : boxes k (fun _ => True).
Proof.
  intros r Hr. exists (fun _ => - r), (fun _ => r). split; [intros; lra|]. intros x. split.
  - intros H. split; [exact I|]. intros i Hi. apply Rabs_le. apply H. exact Hi.
  - intros [_ H] i Hi. specialize (H i Hi). pose proof (Rle_abs (x i)). pose proof (Rle_abs (- x i)) as Q. rewrite Rabs_Ropp in Q. lra.
Qed.
Lemma boxes_bounded k g : 0 <= g -> boxes k (within k g).
Proof.
  intros Hg r Hr. exists (fun _ => - Rmin r g), (fun _ => Rmin r g). assert (0 <= Rmin r g) by (apply Rmin_glb; assumption). split; [intros; lra|].
  pose proof (Rmin_l r g). pose proof (Rmin_r r g). intros x. split.
  - intros B. split; intros i Hi; specialize (B i Hi); cbv beta in B; apply Rabs_le; lra.
  - intros [B1 B2] i Hi. specialize (B1 i Hi). specialize (B2 i Hi). pose proof (Rmin_glb r g (Rabs (x i)) B2 B1). pose proof (Rle_abs (x i)). pose proof (Rle_abs (- x i)) as Q. rewrite Rabs_Ropp in Q. lra.
Qed.
(** ** The iterates of the solvers with A = I *)
Section sc_lim.
Variables (n m : nat) (L LT : vec -> vec) (s : vec) (mu : R).
Hypothesis HL : linear_map L.
Hypothesis Hadj : adjoint_of n m L LT.
Hypothesis Hloc : forall x y, (forall i, (i < n)%nat -> x i = y i) -> forall p, (p < m)%nat -> L x p = L y p.
Variables (E : vec -> Prop) (g : vec -> R) (rlx rho : R) (xstep ystep : vec -> vec -> vec).
Hypothesis Hmu : 0 <= mu.
Hypothesis Hrho : 0 < rho.
Hypothesis Cg : convex_on E g.
Hypothesis HXm : forall y u, argmin (fun _ => True) (fun x => auglag n eq_A eq_B eq_c rho (sc_f n m L s mu) g x y u) (xstep y u).
Hypothesis HY : forall ax u, E (ystep ax u) /\ subgradient n E g (ystep ax u) (fun i => rho * (ax i + u i - ystep ax u i)).
Hypothesis HE : closed n E.
Hypothesis Hg : loc_lip n g.
Lemma sc_iterates st : 0 < rlx < 2 -> (exists p, argmin E (fun x => sc_f n m L s mu x + g x) p) ->
  let it k := iterate eq_A eq_B eq_c rlx xstep ystep k st in
  exists p, argmin E (fun x => sc_f n m L s mu x + g x) p /\ forall i, (i < n)%nat -> Un_cv (fun k => sX (it k) i) (p i) /\ Un_cv (fun k => sY (it k) i) (p i).
Proof.
  intros Hr [p0 Hp0] it0.
  assert (Lf : loc_lip n (sc_f n m L s mu)) by (unfold sc_f; apply lip_plus; [apply (lip_lsq n m L s HL Hloc)|apply lip_ridge]).
  pose proof (sc_saddle n m L LT s mu HL Hadj E g rho p0 Hmu Hrho Cg Hp0) as Sd.
  destruct (iterates_converge n eq_A eq_B eq_c rlx rho (fun _ => True) E (sc_f n m L s mu) g xstep ystep (eqA_affine n) (fun y i => eq_refl) (sc_convex n m L s mu HL Hmu) Cg Hrho HXm
    (run_Y n E g rho ystep Hrho HY)) with (st := st) (xs := p0) (ys := p0) (us := fun i => - sc_grad L LT s mu p0 i / rho) as (p & l & u & [(_ & El & G) Hm] & C1 & C2); try assumption.
  - intros x y l v _ Hy Cy Cg0 Cv. exists l. split.
    + split; [exact I|]. split; [apply (HE y l Hy Cy)|]. intros i _. unfold gap, eq_A, eq_B, eq_c. ring.
    + right.
      assert (Cx : forall i, (i < n)%nat -> Un_cv (fun k => x k i) (l i)).
      { intros i Hi. pose proof (CV_plus _ _ _ _ (Cg0 i Hi) (Cy i Hi)) as Q. rewrite Rplus_0_l in Q. revert Q. apply cv_ext. intros k. unfold gap, eq_A, eq_B, eq_c. ring. }
      apply (UL_sequence _ _ _ (CV_plus _ _ _ _ (lip_cv n _ x l Lf Cx) (lip_cv n g y l Hg Cy)) Cv).
  - exists l. split.
    + split; [exact El|]. intros x Ex. specialize (Hm x x I Ex).
      assert (Z : dot n u (gap eq_A eq_B eq_c x x) = 0).
      { unfold dot. rewrite (sumn_ext n _ (fun _ => 0)) by (intros; unfold gap, eq_A, eq_B, eq_c; ring). clear. induction n; cbn [sumn]; [reflexivity|rewrite IHn0; ring]. }
      rewrite Z, Rmult_0_r, Rplus_0_r in Hm.
      rewrite (sc_ext n m L s mu Hloc p l) in Hm by (intros i Hi; specialize (G i Hi); unfold gap, eq_A, eq_B, eq_c in G; lra). exact Hm.
    + intros i Hi. specialize (C1 i Hi). split; [|exact C1].
      destruct (sc_convergence_min n m L LT s mu HL Hadj E g rlx rho xstep ystep Hmu Hrho Cg HXm HY st p0 Hr Hp0) as (P1 & _).
      pose proof (CV_plus _ _ _ _ (cv_nrm_coord n (fun k i => sX (it0 k) i - sY (it0 k) i) P1 i Hi) C1) as Q. rewrite Rplus_0_l in Q. revert Q. apply cv_ext. intros k. unfold it0, it. ring.
Qed.
End sc_lim.
