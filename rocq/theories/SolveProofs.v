Require Import String List Bool ZArith Arith Lia.
Require Import Verif.TimerModel Verif.TimerSpec Verif.TimerProofs Verif.SolveModel Verif.SolveSpec.
Import ListNotations.
Local Open Scope list_scope.

Section P.
Context {St Stat Num : Type}.
Notation sol := (sol St Stat).
Notation opts := (opts St).

(** A loop body acts as [iter] on the arrays, breaks exactly for [reason], leaves the counter, and records one line of
    statistics with the current number if [rec]. *)
Definition acts (body : sol -> sol * bool) (iter : nat -> St -> St) (reason : nat -> St -> Prop) (rec : bool) : Prop :=
  forall s, it (fst (body s)) = iter (cnt s) (it s) /\
            (snd (body s) = true <-> reason (cnt s) (it s)) /\
            cnt (fst (body s)) = cnt s /\
            numbers (fst (body s)) = numbers s ++ (if rec then [cnt s] else []).

Lemma after_shift (iter : nat -> St -> St) k0 i0 j : after iter (S k0) (iter k0 i0) j = after iter k0 i0 (S j).
Proof.
  induction j as [|j IH]; simpl.
  - rewrite Nat.add_0_r. reflexivity.
  - rewrite IH. simpl. f_equal. lia.
Qed.

Lemma pyfor_spec body iter reason rec : acts body iter reason rec ->
  forall n k s, 1 <= n ->
  exists m, performs iter reason k (it s) n m /\
    it (pyfor body n k s) = after iter k (it s) m /\
    cnt (pyfor body n k s) = k + (m - 1) /\
    numbers (pyfor body n k s) = numbers s ++ (if rec then seq k m else []).
Proof.
  intros HA. induction n as [|n IH]; intros k s Hn; [lia|].
  simpl. destruct (HA (set_cnt k s)) as (H1 & H2 & H3 & H4). simpl in H1, H2, H3, H4.
  destruct (body (set_cnt k s)) as [s' b]. simpl in H1, H2, H3, H4.
  assert (N : numbers (set_cnt k s) = numbers s) by reflexivity. rewrite N in H4.
  destruct b.
  - exists 1. repeat split; try lia.
    + intros _. simpl. rewrite Nat.add_0_r. apply H2. reflexivity.
    + rewrite H1. simpl. rewrite Nat.add_0_r. reflexivity.
    + rewrite H4. destruct rec; reflexivity.
  - assert (Hno : ~ reason k (it s)) by (intros Hr; apply H2 in Hr; discriminate).
    destruct n as [|n].
    + simpl. exists 1. repeat split; try lia.
      * rewrite H1. simpl. rewrite Nat.add_0_r. reflexivity.
      * rewrite H4. destruct rec; reflexivity.
    + destruct (IH (S k) s' ltac:(lia)) as (m & (Hm & Hm1 & Hm2) & E1 & E2 & E3).
      exists (S m). split; [split; [lia|split]|].
      * intros j Hj. destruct j as [|j].
        -- simpl. rewrite Nat.add_0_r. exact Hno.
        -- replace (k + S j) with (S k + j) by lia. rewrite <- after_shift. rewrite <- H1. apply Hm1. lia.
      * intros Hlt. replace (S m - 1) with (S (m - 1)) by lia.
        replace (k + S (m - 1)) with (S k + (m - 1)) by lia. rewrite <- after_shift, <- H1. apply Hm2. lia.
      * split; [|split].
        -- rewrite E1, H1. apply after_shift.
        -- rewrite E2. lia.
        -- rewrite E3, H4, <- app_assoc. destruct rec; reflexivity.
Qed.

(** One call of solve. *)
Definition call_ok (solve : opts -> sol -> sol) (iter : opts -> nat -> St -> St) (reason : opts -> nat -> St -> Prop)
    (rec : opts -> bool) : Prop :=
  forall o s, 1 <= maxiter o ->
  exists m, performs (iter o) (reason o) (cnt s) (it s) (maxiter o) m /\
    it (solve o s) = after (iter o) (cnt s) (it s) m /\
    cnt (solve o s) = cnt s + m /\
    numbers (solve o s) = numbers s ++ (if rec o then seq (cnt s) m else []).

Section Admm.
Variable ltb : Num -> Num -> bool.
Variable clock : nat -> Z.
Variable sweep : nat -> St -> St.
Variable residuals : St -> Num * Num * Num * Num.
Variable stats : nat -> St -> option (Num * Num * Num * Num) -> Stat.
Variable update_rho : opts -> nat -> Num -> Num -> St -> St.

Lemma admm_acts o : acts (admm_body ltb clock sweep residuals stats update_rho o)
  (admm_iter sweep residuals update_rho o) (admm_reason ltb sweep residuals update_rho o) (negb (fast o)).
Proof.
  intros s. unfold admm_body, admm_iter, admm_reason, admm_pre, checked, cb_state, cb_true, run_callback.
  destruct s as [i k st tmr c].
  destruct (fast o); destruct (autorho o); simpl;
    destruct (residuals (sweep k i)) as [[[r d] epri] edua]; simpl;
    destruct (callback o) as [f|]; simpl;
    try (match goal with |- context [f ?k0 ?i0] => destruct (f k0 i0) as [i' b] eqn:Ef end); simpl;
    try destruct b; simpl; unfold numbers; simpl; rewrite ?map_app, ?app_nil_r; simpl;
    (split; [reflexivity|]); (split; [|split; reflexivity]);
    rewrite ?andb_true_iff; split;
    try (intros H; repeat (match type of H with _ /\ _ => fail 1 | _ => idtac end);
         first [ discriminate H
               | left; eexists; split; [reflexivity|rewrite Ef; reflexivity]
               | right; split; [tauto|exact H] ]);
    try (intros [(f' & Hf & Hb)|[[H|H] H']];
         try discriminate; try reflexivity; try exact H';
         try (inversion Hf; subst f'; rewrite Ef in Hb; simpl in Hb; discriminate)).
Qed.

Lemma admm_call : call_ok (admm_solve ltb clock sweep residuals stats update_rho)
  (admm_iter sweep residuals update_rho) (admm_reason ltb sweep residuals update_rho) (fun o => negb (fast o)).
Proof.
  intros o s Hn. unfold admm_solve.
  destruct (pyfor_spec _ _ _ _ (admm_acts o) (maxiter o) (cnt s) (tstart clock admm_labels s) Hn)
    as (m & Hp & E1 & E2 & E3).
  exists m. split; [exact Hp|]. simpl. split; [exact E1|]. split.
  - rewrite E2. destruct Hp as ((H1 & _) & _). lia.
  - exact E3.
Qed.
End Admm.

Section Pgm.
Variable ltb : Num -> Num -> bool.
Variable clock : nat -> Z.
Variable stats : nat -> St -> option (Num * Num * Num * Num) -> Stat.
Variables pgm_start pgm_xy pgm_bt : nat -> St -> St.
Variable pgm_res : nat -> St -> Num * Num.

Lemma pgm_acts o : acts (pgm_body ltb clock stats pgm_start pgm_xy pgm_bt pgm_res o)
  (pgm_iter pgm_start pgm_xy pgm_bt o) (pgm_reason ltb pgm_start pgm_xy pgm_bt pgm_res o) (negb (fast o)).
Proof.
  intros s. unfold pgm_body, pgm_iter, pgm_reason, pgm_pre, cb_state, cb_true, run_callback.
  destruct s as [i k st tmr c].
  destruct (fast o); destruct (btrack o); simpl;
    match goal with |- context [pgm_res ?a ?b] => destruct (pgm_res a b) as [r tol] end; simpl;
    destruct (callback o) as [f|]; simpl;
    try (match goal with |- context [f ?k0 ?i0] => destruct (f k0 i0) as [i' b] eqn:Ef end); simpl;
    try destruct b; simpl; unfold numbers; simpl; rewrite ?map_app, ?app_nil_r; simpl;
    (split; [reflexivity|]); (split; [|split; reflexivity]); split;
    try (intros H;
         first [ discriminate H
               | left; eexists; split; [reflexivity|rewrite Ef; reflexivity]
               | right; split; [tauto|exact H] ]);
    try (intros [(f' & Hf & Hb)|[H H']];
         try discriminate; try reflexivity; try exact H';
         try (inversion Hf; subst f'; rewrite Ef in Hb; simpl in Hb; discriminate)).
Qed.

Lemma pgm_call : call_ok (pgm_solve ltb clock stats pgm_start pgm_xy pgm_bt pgm_res)
  (pgm_iter pgm_start pgm_xy pgm_bt) (pgm_reason ltb pgm_start pgm_xy pgm_bt pgm_res) (fun o => negb (fast o)).
Proof.
  intros o s Hn. unfold pgm_solve.
  destruct (pyfor_spec _ _ _ _ (pgm_acts o) (maxiter o) (cnt s) (tstart clock pgm_labels s) Hn)
    as (m & Hp & E1 & E2 & E3).
  exists m. split; [exact Hp|]. simpl. split; [exact E1|]. split.
  - rewrite E2. destruct Hp as ((H1 & _) & _). lia.
  - exact E3.
Qed.
End Pgm.

Section Dl.
Variable clock : nat -> Z.
Variable stats : nat -> St -> option (Num * Num * Num * Num) -> Stat.
Variable dl_steps : nat -> St -> St.

Lemma dl_acts o : acts (dl_body clock stats dl_steps o) (dl_iter dl_steps o) (dl_reason dl_steps o) true.
Proof.
  intros s. unfold dl_body, dl_iter, dl_reason, cb_state, cb_true, run_callback.
  destruct s as [i k st tmr c]. simpl.
  destruct (callback o) as [f|]; simpl;
    try (match goal with |- context [f ?k0 ?i0] => destruct (f k0 i0) as [i' b] eqn:Ef end); simpl;
    unfold numbers; simpl; rewrite ?map_app; simpl;
    (split; [reflexivity|]); (split; [|split; reflexivity]); split.
  - intros ->. eexists. split; [reflexivity|]. rewrite Ef. reflexivity.
  - intros (f' & Hf & Hb). inversion Hf. subst f'. rewrite Ef in Hb. exact Hb.
  - discriminate.
  - intros (f' & Hf & _). discriminate Hf.
Qed.

Lemma dl_call : call_ok (dl_solve clock stats dl_steps) (dl_iter dl_steps) (dl_reason dl_steps) (fun _ => true).
Proof.
  intros o s Hn. unfold dl_solve.
  destruct (pyfor_spec _ _ _ _ (dl_acts o) (maxiter o) (cnt s) (tstart clock dl_labels s) Hn)
    as (m & Hp & E1 & E2 & E3).
  exists m. split; [exact Hp|]. simpl. split; [exact E1|]. split.
  - rewrite E2. destruct Hp as ((H1 & _) & _). lia.
  - exact E3.
Qed.
End Dl.


(** Histories. *)
Lemma after_count (iter : nat -> St -> St) (c : St -> nat) : (forall k i, c (iter k i) = S (c i)) ->
  forall k0 i0 j, c (after iter k0 i0 j) = c i0 + j.
Proof. intros H k0 i0 j. induction j as [|j IH]; simpl; [lia|]. rewrite H, IH. lia. Qed.

Lemma history (solve : opts -> sol -> sol) iter reason rec : call_ok solve iter reason rec ->
  forall c : St -> nat, (forall o k i, c (iter o k i) = S (c i)) ->
  forall os s, (forall o, In o os -> 1 <= maxiter o /\ rec o = true) -> numbers s = seq 0 (cnt s) ->
  cnt (solves solve os s) + c (it s) = cnt s + c (it (solves solve os s)) /\
  numbers (solves solve os s) = seq 0 (cnt (solves solve os s)).
Proof.
  intros Hc c Hcnt. induction os as [|o os IH]; intros s Ho Hs.
  - split; [reflexivity|exact Hs].
  - unfold solves in *. simpl.
    destruct (Ho o (or_introl eq_refl)) as (H1 & H2).
    destruct (Hc o s H1) as (m & Hp & E1 & E2 & E3). rewrite H2 in E3.
    assert (Hs' : numbers (solve o s) = seq 0 (cnt (solve o s))).
    { rewrite E3, E2, Hs, seq_app. reflexivity. }
    destruct (IH (solve o s) (fun o' H => Ho o' (or_intror H)) Hs') as (I1 & I2).
    split; [|exact I2]. rewrite E1, (after_count _ c (Hcnt o)) in I1. rewrite E2 in I1. lia.
Qed.
End P.
