Require Import Reals List Bool Arith Lra Lia.
Require Import Verif.RhoModel.
Import ListNotations.
Local Open Scope R_scope.

Lemma Rltb_true x y : Rltb x y = true <-> x < y.
Proof. unfold Rltb. destruct (Rlt_dec x y); split; intros; try assumption; try reflexivity; try discriminate; contradiction. Qed.
Lemma Rltb_false x y : Rltb x y = false <-> y <= x.
Proof. unfold Rltb. destruct (Rlt_dec x y); split; intros; try lra; try reflexivity; try discriminate. Qed.
Lemma Reqb_true x y : Reqb x y = true <-> x = y.
Proof. unfold Reqb. destruct (Req_EM_T x y); split; intros; try assumption; try reflexivity; try discriminate; contradiction. Qed.

Lemma sqrt_ge_1 x : 1 <= x -> 1 <= sqrt x.
Proof. intros H. rewrite <- sqrt_1 at 1. apply sqrt_le_1_alt. exact H. Qed.

Lemma mult_range o r s : 1 <= tau o -> 0 < xi o -> 0 <= r -> 0 <= s -> 1 <= rho_mult o r s <= tau o.
Proof.
  intros Ht Hx Hr Hs. unfold rho_mult. destruct (ar_autoscale o); [|lra].
  destruct (Reqb s 0) eqn:Es; [simpl; lra|]. destruct (Reqb r 0) eqn:Er; [simpl; lra|]. simpl.
  assert (Hs' : 0 < s).
  { destruct Hs as [Hs|Hs]; [exact Hs|]. symmetry in Hs. apply Reqb_true in Hs. congruence. }
  assert (Hr' : 0 < r).
  { destruct Hr as [Hr|Hr]; [exact Hr|]. symmetry in Hr. apply Reqb_true in Hr. congruence. }
  assert (Hsx : 0 < s * xi o) by (apply Rmult_lt_0_compat; assumption).
  set (q := if Rltb (s * xi o) r then r / (s * xi o) else s * xi o / r).
  assert (Hq : 1 <= q).
  { unfold q. destruct (Rltb (s * xi o) r) eqn:E.
    - apply Rltb_true in E. apply Rmult_le_reg_r with (s * xi o); [exact Hsx|].
      unfold Rdiv. rewrite Rmult_assoc, Rinv_l by lra. lra.
    - apply Rltb_false in E. apply Rmult_le_reg_r with r; [exact Hr'|].
      unfold Rdiv. rewrite Rmult_assoc, Rinv_l by lra. lra. }
  pose proof (sqrt_ge_1 q Hq) as H1.
  destruct (Rltb (tau o) (sqrt q)) eqn:E; [lra|]. apply Rltb_false in E. lra.
Qed.

Lemma inv_range m t : 1 <= m <= t -> / t <= 1 / m <= 1.
Proof.
  intros [H1 H2]. unfold Rdiv. rewrite Rmult_1_l. split.
  - apply Rinv_le_contravar; lra.
  - rewrite <- Rinv_1. apply Rinv_le_contravar; lra.
Qed.

Lemma factor_range o r s : 1 <= tau o -> 0 < xi o -> 0 <= r -> 0 <= s -> / tau o <= rho_factor o r s <= tau o.
Proof.
  intros Ht Hx Hr Hs. pose proof (mult_range o r s Ht Hx Hr Hs) as [H1 H2].
  assert (Hi : / tau o <= 1) by (rewrite <- Rinv_1; apply Rinv_le_contravar; lra).
  unfold rho_factor. destruct (Rltb (xi o * mu o * s) r); [lra|].
  destruct (Rltb (mu o / xi o * r) s); [|lra].
  pose proof (inv_range _ _ (conj H1 H2)). lra.
Qed.

Lemma factor_up o r s : 1 <= tau o -> 0 < xi o -> 0 <= r -> 0 <= s -> 1 < rho_factor o r s -> xi o * mu o * s < r.
Proof.
  intros Ht Hx Hr Hs. pose proof (mult_range o r s Ht Hx Hr Hs) as [H1 H2]. unfold rho_factor.
  destruct (Rltb (xi o * mu o * s) r) eqn:E; [intros _; apply Rltb_true; exact E|].
  destruct (Rltb (mu o / xi o * r) s); [|lra]. pose proof (inv_range _ _ (conj H1 H2)). lra.
Qed.

Lemma factor_down o r s : 1 <= tau o -> 0 < xi o -> 0 <= r -> 0 <= s -> rho_factor o r s < 1 ->
  mu o / xi o * r < s /\ r <= xi o * mu o * s.
Proof.
  intros Ht Hx Hr Hs. pose proof (mult_range o r s Ht Hx Hr Hs) as [H1 H2]. unfold rho_factor.
  destruct (Rltb (xi o * mu o * s) r) eqn:E; [lra|]. apply Rltb_false in E.
  destruct (Rltb (mu o / xi o * r) s) eqn:E'; [|lra]. apply Rltb_true in E'. intros _. split; assumption.
Qed.

Definition good (o : rho_opts) : Prop := 1 <= tau o /\ 0 < xi o.

Lemma factor_pos o r s : good o -> 0 <= r -> 0 <= s -> 0 < rho_factor o r s.
Proof.
  intros [Ht Hx] Hr Hs. pose proof (factor_range o r s Ht Hx Hr Hs) as [H _].
  assert (0 < / tau o) by (apply Rinv_0_lt_compat; lra). lra.
Qed.

Lemma scaled f r l : f <> 0 -> map (Rmult (r * f)) (map (fun u => u / f) l) = map (Rmult r) l.
Proof. intros Hf. rewrite map_map. apply map_ext. intros u. field. exact Hf. Qed.

(** One update. *)
Definition step_ok (o : rho_opts) (k : nat) (r s : R) (st st' : rstate) : Prop :=
  map (Rmult (rho st')) (U st') = map (Rmult (rho st)) (U st) /\
  0 < rho st' /\
  rho st / tau o <= rho st' <= rho st * tau o /\
  (rho st < rho st' -> xi o * mu o * s < r) /\
  (rho st' < rho st -> mu o / xi o * r < s) /\
  (rho st' <> rho st -> changes st' = S (changes st)) /\
  (rho st' = rho st -> changes st' = changes st /\ U st' = U st).

Lemma update_ok o k r s st : good o -> 0 <= r -> 0 <= s -> 0 < rho st -> step_ok o k r s st (update_rho o k r s st).
Proof.
  intros [Ht Hx] Hr Hs Hp. unfold step_ok, update_rho.
  assert (Hsame : rho st / tau o <= rho st <= rho st * tau o).
  { split.
    - apply Rmult_le_reg_r with (tau o); [lra|]. unfold Rdiv. rewrite Rmult_assoc, Rinv_l by lra.
      rewrite Rmult_1_r. rewrite <- (Rmult_1_r (rho st)) at 1. apply Rmult_le_compat_l; lra.
    - rewrite <- (Rmult_1_r (rho st)) at 1. apply Rmult_le_compat_l; lra. }
  destruct (ar_enabled o); [|repeat split; try lra; try reflexivity; intros; congruence].
  destruct (negb (Nat.eqb k 0) && Nat.eqb ((k + 1) mod ar_period o) 0);
    [|repeat split; try lra; try reflexivity; intros; congruence].
  pose proof (factor_range o r s Ht Hx Hr Hs) as [F1 F2].
  pose proof (factor_pos o r s (conj Ht Hx) Hr Hs) as F0.
  pose proof (factor_up o r s Ht Hx Hr Hs) as Fu. pose proof (factor_down o r s Ht Hx Hr Hs) as Fd.
  set (f := rho_factor o r s) in *. simpl.
  assert (Heq : rho st * f = rho st <-> f = 1).
  { split; [intros E|intros ->; lra]. apply Rmult_eq_reg_l with (rho st); lra. }
  split; [apply scaled; lra|]. split; [apply Rmult_lt_0_compat; assumption|].
  split; [split; [unfold Rdiv|]; apply Rmult_le_compat_l; lra|].
  split; [intros E; apply Fu; apply Rmult_lt_reg_l with (rho st); lra|].
  split; [intros E; apply Fd; apply Rmult_lt_reg_l with (rho st); lra|].
  split.
  - intros E. destruct (Reqb f 1) eqn:Ef; [|reflexivity]. apply Reqb_true in Ef. apply Heq in Ef. contradiction.
  - intros E. apply Heq in E. rewrite E. split.
    + assert (E1 : Reqb 1 1 = true) by (apply Reqb_true; reflexivity). rewrite E1. reflexivity.
    + transitivity (map (fun u => u) (U st)); [|apply map_id]. apply map_ext. intros u. field.
Qed.

(** Histories of updates with arbitrary residuals. *)
Definition updates (o : rho_opts) (h : list (nat * R * R)) (st : rstate) : rstate :=
  fold_left (fun st e => update_rho o (fst (fst e)) (snd (fst e)) (snd e) st) h st.

Lemma updates_ok o h : good o -> forall st, 0 < rho st ->
  (forall e, In e h -> 0 <= snd (fst e) /\ 0 <= snd e) ->
  0 < rho (updates o h st) /\ map (Rmult (rho (updates o h st))) (U (updates o h st)) = map (Rmult (rho st)) (U st).
Proof.
  intros Hg. induction h as [|e h IH]; intros st Hp Hh; [split; [exact Hp|reflexivity]|].
  unfold updates in *. simpl. destruct (Hh e (or_introl eq_refl)) as [H1 H2].
  destruct (update_ok o (fst (fst e)) (snd (fst e)) (snd e) st Hg H1 H2 Hp) as (A & B & _).
  destruct (IH _ B (fun e' He => Hh e' (or_intror He))) as (C & D). split; [exact C|]. rewrite D. exact A.
Qed.

Lemma updates_disabled o h st : ar_enabled o = false -> updates o h st = st.
Proof.
  intros E. induction h as [|e h IH]; [reflexivity|]. unfold updates in *. simpl.
  replace (update_rho o (fst (fst e)) (snd (fst e)) (snd e) st) with st; [exact IH|].
  unfold update_rho. rewrite E. reflexivity.
Qed.

Lemma mult_val o r s : 0 < xi o -> 0 < r -> 0 < s ->
  rho_mult o r s = if ar_autoscale o then Rmin (tau o) (sqrt (Rmax (r / (s * xi o)) (s * xi o / r))) else tau o.
Proof.
  intros Hx Hr Hs. unfold rho_mult. destruct (ar_autoscale o); [|reflexivity].
  assert (E1 : Reqb s 0 = false) by (destruct (Reqb s 0) eqn:E; [apply Reqb_true in E; lra|reflexivity]).
  assert (E2 : Reqb r 0 = false) by (destruct (Reqb r 0) eqn:E; [apply Reqb_true in E; lra|reflexivity]).
  rewrite E1, E2. simpl.
  assert (Hsx : 0 < s * xi o) by (apply Rmult_lt_0_compat; assumption).
  assert (Hq : (if Rltb (s * xi o) r then r / (s * xi o) else s * xi o / r) = Rmax (r / (s * xi o)) (s * xi o / r)).
  { destruct (Rltb (s * xi o) r) eqn:E.
    - apply Rltb_true in E. rewrite Rmax_left; [reflexivity|].
      apply Rle_trans with 1.
      + apply Rmult_le_reg_r with r; [exact Hr|]. unfold Rdiv. rewrite Rmult_assoc, Rinv_l by lra. lra.
      + apply Rmult_le_reg_r with (s * xi o); [exact Hsx|]. unfold Rdiv. rewrite Rmult_assoc, Rinv_l by lra. lra.
    - apply Rltb_false in E. rewrite Rmax_right; [reflexivity|].
      apply Rle_trans with 1.
      + apply Rmult_le_reg_r with (s * xi o); [exact Hsx|]. unfold Rdiv. rewrite Rmult_assoc, Rinv_l by lra. lra.
      + apply Rmult_le_reg_r with r; [exact Hr|]. unfold Rdiv. rewrite Rmult_assoc, Rinv_l by lra. lra. }
  rewrite Hq. set (q := sqrt _). destruct (Rltb (tau o) q) eqn:E.
  - apply Rltb_true in E. rewrite Rmin_left; lra.
  - apply Rltb_false in E. rewrite Rmin_right; lra.
Qed.

Lemma update_effect :
  forall (o : rho_opts) (k : nat) (r s : R) (st : rstate),
  1 <= tau o -> 0 < xi o -> 0 < r -> 0 < s -> 0 < rho st ->
  ar_enabled o = true -> k <> 0%nat -> ((k + 1) mod ar_period o = 0)%nat ->
  let m := if ar_autoscale o then Rmin (tau o) (sqrt (Rmax (r / (s * xi o)) (s * xi o / r))) else tau o in
  let rho' := rho (update_rho o k r s st) in
  (xi o * mu o * s < r -> rho' = rho st * m) /\
  (r <= xi o * mu o * s -> mu o / xi o * r < s -> rho' = rho st / m) /\
  (r <= xi o * mu o * s -> s <= mu o / xi o * r -> rho' = rho st).
Proof.
  intros o k r s st Ht Hx Hr Hs Hp He Hk Hm m rho'.
  assert (E : rho' = rho st * rho_factor o r s).
  { unfold rho', update_rho. rewrite He, Hm. apply Nat.eqb_neq in Hk. rewrite Hk. reflexivity. }
  rewrite E. unfold rho_factor. rewrite (mult_val o r s Hx Hr Hs). fold m. clear E rho'.
  repeat split.
  - intros H. apply Rltb_true in H. rewrite H. reflexivity.
  - intros H1 H2. apply Rltb_false in H1. apply Rltb_true in H2. rewrite H1, H2. unfold Rdiv. ring.
  - intros H1 H2. apply Rltb_false in H1. apply Rltb_false in H2. rewrite H1, H2. ring.
Qed.
