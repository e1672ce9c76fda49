(** C34: adaptive penalty updates. *)
Require Import Reals List Bool Arith Lra Lia.
Require Import Verif.RhoModel Verif.RhoProofs.
Import ListNotations.
Local Open Scope R_scope.

(** C34: one update, for any iteration number and any non-negative residuals (zero included): the unscaled dual variable
    rho*U is unchanged; rho stays positive; it changes by a factor between 1/Scaling and Scaling; it grows only if the primal
    residual dominates and shrinks only if the dual residual dominates; the solver is told (rhochange) exactly when rho
    changed. *)
Theorem C34_update :
  forall (o : rho_opts) (k : nat) (r s : R) (st : rstate),
  1 <= tau o -> 0 < xi o -> 0 <= r -> 0 <= s -> 0 < rho st ->
  let st' := update_rho o k r s st in
  map (Rmult (rho st')) (U st') = map (Rmult (rho st)) (U st) /\
  0 < rho st' /\
  rho st / tau o <= rho st' <= rho st * tau o /\
  (rho st < rho st' -> xi o * mu o * s < r) /\
  (rho st' < rho st -> mu o / xi o * r < s) /\
  (rho st' <> rho st -> changes st' = S (changes st)) /\
  (rho st' = rho st -> changes st' = changes st /\ U st' = U st).
Proof. intros o k r s st H1 H2 H3 H4 H5. exact (update_ok o k r s st (conj H1 H2) H3 H4 H5). Qed.
Print Assumptions C34_update.

(** C34 over a whole run with any sequence of residuals; with adaptation disabled nothing changes. *)
Theorem C34_history :
  forall (o : rho_opts) (h : list (nat * R * R)) (st : rstate),
  (1 <= tau o -> 0 < xi o -> 0 < rho st -> (forall e, In e h -> 0 <= snd (fst e) /\ 0 <= snd e) ->
   0 < rho (updates o h st) /\ map (Rmult (rho (updates o h st))) (U (updates o h st)) = map (Rmult (rho st)) (U st)) /\
  (ar_enabled o = false -> updates o h st = st).
Proof.
  intros o h st. split.
  - intros H1 H2 H3 H4. exact (updates_ok o h (conj H1 H2) st H3 H4).
  - apply updates_disabled.
Qed.
Print Assumptions C34_history.

(** The update happens exactly in the iterations that the period selects, except number 0. *)
Theorem C34_period :
  forall (o : rho_opts) (k : nat) (r s : R) (st : rstate),
  rho (update_rho o k r s st) <> rho st ->
  ar_enabled o = true /\ k <> 0%nat /\ ((k + 1) mod ar_period o = 0)%nat.
Proof.
  intros o k r s st. unfold update_rho.
  destruct (ar_enabled o); [|congruence]. destruct (Nat.eqb_spec k 0); simpl; [congruence|].
  destruct (Nat.eqb_spec ((k + 1) mod ar_period o) 0); [|congruence]. intros _. auto.
Qed.
Print Assumptions C34_period.

(** What the update does in a selected iteration: multiply by Scaling (or, with AutoScaling and positive residuals, by the
    square root of the residual quotient but at most Scaling) if the primal residual dominates, divide by it if the dual
    residual dominates, and otherwise nothing. *)
Theorem C34_effect :
  forall (o : rho_opts) (k : nat) (r s : R) (st : rstate),
  1 <= tau o -> 0 < xi o -> 0 < r -> 0 < s -> 0 < rho st ->
  ar_enabled o = true -> k <> 0%nat -> ((k + 1) mod ar_period o = 0)%nat ->
  let m := if ar_autoscale o then Rmin (tau o) (sqrt (Rmax (r / (s * xi o)) (s * xi o / r))) else tau o in
  let rho' := rho (update_rho o k r s st) in
  (xi o * mu o * s < r -> rho' = rho st * m) /\
  (r <= xi o * mu o * s -> mu o / xi o * r < s -> rho' = rho st / m) /\
  (r <= xi o * mu o * s -> s <= mu o / xi o * r -> rho' = rho st).
Proof. exact update_effect. Qed.
Print Assumptions C34_effect.

(** A case with a real change: residuals 100 and 1, fixed scaling 2: rho doubles. *)
Example C34_example :
  let o := mkRho true 1 false 2 10 1 in
  update_rho o 3 100 1 (mkR 5 [4; 6] 0) = mkR 10 [2; 3] 1.
Proof.
  unfold update_rho, rho_factor, rho_mult. simpl.
  assert (E : Rltb (1 * 10 * 1) 100 = true) by (apply Rltb_true; lra). rewrite E.
  assert (E2 : Reqb 2 1 = false).
  { destruct (Reqb 2 1) eqn:F; [apply Reqb_true in F; lra|reflexivity]. }
  rewrite E2. f_equal; [lra|]. f_equal; [lra|]. f_equal. lra.
Qed.
