(** The loop of the parallel solver and histories of calls. *)
Require Import Reals List Arith Bool Lia Lra FunctionalExtensionality.
Require Import Verif.RVec Verif.ProxModel Verif.InterModel Verif.InterProofs Verif.ParModel Verif.ParProofs Verif.ParSpec Verif.ParSem Verif.ParIter.
Import ListNotations.
Local Open Scope nat_scope.

(** A call of solve: schedules, whether residuals are computed, stopping condition, MaxMainIter. *)
Record call := mkCall { c_sched : schedules; c_rs : bool; c_stop : nat -> pmem -> bool; c_maxit : nat }.
Definition do_call (c : params) (a : call) (km : nat * pmem) : nat * pmem := solve c (c_sched a) (c_rs a) (c_stop a) (c_maxit a) km.
Definition do_calls (c : params) (calls : list call) (km : nat * pmem) : nat * pmem := fold_left (fun km a => do_call c a km) calls km.
(** The same call without a pool. *)
Definition serial (a : call) : call := mkCall (fun _ _ => None) (c_rs a) (c_stop a) (c_maxit a).
(** Every task of every phase is finished: each gets at least as many turns as it has actions. *)
Definition fair (c : params) (sc : schedules) : Prop := forall k ph s, sc k ph = Some s ->
  forall f, In f [par_initial_stepgrp c; par_final_stepgrp c; par_stepgrp c; par_compute_residuals c] ->
  forall i, i < ngrp c -> length (f i) <= count_occ Nat.eq_dec s i.

Section Loop.
Variable c : params.
Hypothesis Hg : groups (ngrp c) (nfilt c) (grp c).

Lemma dist_fair : forall sc k ph f m, fair c sc -> phase c f -> distribute c (sc k ph) f m = distribute c None f m.
Proof.
  intros sc k ph f m Hf Hp. destruct (sc k ph) as [s|] eqn:E; [ | reflexivity].
  apply (distribute_sched c Hg); [exact Hp | ]. intros i Hi. apply (Hf k ph s E); [ | exact Hi].
  destruct Hp as [->|[->|[->| ->]]]; simpl; tauto.
Qed.

Lemma iteration_sched : forall sc rs first last k m, fair c sc ->
  iteration c sc rs first last k m = iteration c (fun _ _ => None) rs first last k m.
Proof.
  intros sc rs first last k m Hf. unfold iteration. cbv zeta.
  rewrite !(dist_fair sc) by (try exact Hf; try apply phase_ini; try apply phase_fin; try apply phase_step; try apply phase_res).
  reflexivity.
Qed.

Lemma loop_sched : forall sc rs stop first last todo k m, fair c sc ->
  loop c sc rs stop first last k todo m = loop c (fun _ _ => None) rs stop first last k todo m.
Proof.
  intros sc rs stop first last todo. induction todo as [|todo IH]; intros k m Hf; [reflexivity | ].
  cbn [loop]. rewrite (iteration_sched sc) by exact Hf. destruct todo; [reflexivity | ].
  destruct (stop k _); [reflexivity | ]. apply IH. exact Hf.
Qed.

Lemma is_same_true : forall a b, is_same a b = true <-> a = b /\ a <= 256.
Proof. intros a b. unfold is_same. rewrite andb_true_iff, Nat.eqb_eq, Nat.leb_le. tauto. Qed.
Lemma is_same_false : forall a b, is_same a b = false <-> a <> b \/ 256 < a.
Proof.
  intros a b. destruct (is_same a b) eqn:E.
  - apply is_same_true in E. split; [discriminate | lia].
  - split; [intros _ | reflexivity]. destruct (Nat.eq_dec a b); [ | tauto]. destruct (le_lt_dec a 256); [ | tauto].
    exfalso. assert (is_same a b = true) by (apply is_same_true; tauto). congruence.
Qed.

(** One iteration. *)
Lemma iteration_spec : forall rs first last k m, is_same k first = true \/ ahead c m ->
  let m' := iteration c (fun _ _ => None) rs first last k m in
  steq c (view m') (step c (view m)) /\
  (is_same k last = false -> ahead c m') /\ (is_same k last = true -> maps_of c (view m) m') /\
  (forall i p, m' (G AY0old i p) = m (G AY0 i p)) /\ (forall f p, m' (F AY1old f p) = m (F AY1 f p)) /\
  (rs = true -> forall a i, i < ngrp c -> m' (Res a i) = resid c i a m').
Proof.
  intros rs first last k m Hr. unfold iteration. cbv zeta.
  set (ms := save_old m).
  set (mi := if is_same k first then distribute c None (par_initial_stepgrp c) ms else ms).
  assert (I : view mi = view m /\ maps_of c (view m) mi /\ (forall f p, mi (F AY1old f p) = m (F AY1 f p)) /\ (forall i p, mi (G AY0old i p) = m (G AY0 i p))).
  { unfold mi. destruct (is_same k first) eqn:E.
    - destruct (dist_ini c Hg ms) as (V & M & _ & O1 & O2). cbv zeta in *. split; [exact V | ]. split; [exact M | ].
      split; intros; [rewrite O1 | rewrite O2]; reflexivity.
    - destruct Hr as [Hr|Hr]; [discriminate | ]. split; [reflexivity | ]. split; [exact Hr | ]. split; reflexivity. }
  destruct I as (V & M & O1 & O2).
  destruct (dist_fin c Hg (view m) mi M) as (F1 & F2 & F3 & F4). cbv zeta in *. rewrite V in F1. fold (step c (view m)) in F1.
  set (mf := distribute c None (par_final_stepgrp c) (y0astep c mi)) in *.
  set (me := if is_same k last then mf else distribute c None (par_stepgrp c) (y0astep c mi)).
  assert (E : steq c (view me) (step c (view m)) /\ (is_same k last = false -> ahead c me) /\ (is_same k last = true -> maps_of c (view m) me) /\
    (forall i p, me (G AY0old i p) = m (G AY0 i p)) /\ (forall f p, me (F AY1old f p) = m (F AY1 f p))).
  { unfold me. destruct (is_same k last) eqn:E.
    - split; [exact F1 | ]. split; [discriminate | ]. split; [intros _; exact F2 | ]. split; intros; [rewrite F4; apply O2 | rewrite F3; apply O1].
    - rewrite (dist_step c Hg). fold mf. destruct (dist_ini c Hg mf) as (V' & M' & _ & P1 & P2). cbv zeta in *.
      split; [rewrite V'; exact F1 | ]. split; [intros _; unfold ahead; rewrite V'; exact M' | ]. split; [discriminate | ].
      split; intros; [rewrite P2, F4; apply O2 | rewrite P1, F3; apply O1]. }
  fold me. destruct E as (E1 & E2 & E3 & E4 & E5).
  destruct rs.
  - destruct (dist_res c Hg me) as (R1 & R2 & R3). cbv zeta in *. set (mr := distribute c None (par_compute_residuals c) me) in *.
    assert (Vr : view mr = view me).
    { unfold view. f_equal; apply functional_extensionality; intros i; apply functional_extensionality; intros p; rewrite ?R1, ?R2; reflexivity. }
    assert (Mr : forall s, maps_of c s me -> maps_of c s mr).
    { intros s [A1 A2]. split; intros; [rewrite !R1; apply A1; assumption | rewrite !R2; apply A2; assumption]. }
    split; [rewrite Vr; exact E1 | ]. split; [intros Hl; unfold ahead; rewrite Vr; apply Mr, E2, Hl | ].
    split; [intros Hl; apply Mr, E3, Hl | ]. split; [intros; rewrite R2; apply E4 | ]. split; [intros; rewrite R1; apply E5 | ].
    intros _ a i Hi. rewrite (R3 a i Hi).
    destruct a; unfold resid;
      repeat match goal with
      | |- (?x + ?y = ?x' + ?y')%R => apply f_equal2
      | |- (?x * ?y = ?x * ?y')%R => apply f_equal
      | |- sumn _ _ = sumn _ _ => apply sumn_ext; intros; rewrite ?R2; reflexivity
      | |- sumf _ _ _ = sumf _ _ _ => apply sumf_ext; intros; rewrite ?R1; reflexivity
      end.
  - split; [exact E1 | ]. split; [exact E2 | ]. split; [exact E3 | ]. split; [exact E4 | ]. split; [exact E5 | ]. discriminate.
Qed.

(** An iteration that does not start with an x step, whatever maps the arrays hold. *)
Lemma iteration_stale : forall rs first last k m s0, is_same k first = false -> maps_of c s0 m ->
  steq c (view (iteration c (fun _ _ => None) rs first last k m)) (update c s0 (view m)).
Proof.
  intros rs first last k m s0 Hk Hm. unfold iteration. rewrite Hk. cbv zeta. set (ms := save_old m).
  assert (V : view ms = view m) by reflexivity.
  assert (M : maps_of c s0 ms) by exact Hm.
  destruct (dist_fin c Hg s0 ms M) as (F1 & _). cbv zeta in F1. rewrite V in F1.
  set (mf := distribute c None (par_final_stepgrp c) (y0astep c ms)) in *.
  assert (E : view (if is_same k last then mf else distribute c None (par_stepgrp c) (y0astep c ms)) = view mf).
  { destruct (is_same k last); [reflexivity | ]. rewrite (dist_step c Hg). apply (dist_ini c Hg). }
  set (me := if is_same k last then mf else distribute c None (par_stepgrp c) (y0astep c ms)) in *.
  destruct rs; [ | rewrite E; exact F1].
  destruct (dist_res c Hg me) as (R1 & R2 & _). cbv zeta in *.
  replace (view (distribute c None (par_compute_residuals c) me)) with (view me); [rewrite E; exact F1 | ].
  unfold view. f_equal; apply functional_extensionality; intros i; apply functional_extensionality; intros p; rewrite ?R1, ?R2; reflexivity.
Qed.

Fixpoint iter (N : nat) (s : st) : st := match N with O => s | S N' => iter N' (step c s) end.
Lemma iter_S : forall N s, iter (S N) s = step c (iter N s).
Proof. intros N. induction N as [|N IH]; intros s; [reflexivity | ]. cbn [iter] in *. rewrite IH. reflexivity. Qed.
Lemma iter_add : forall a b s, iter (a + b) s = iter b (iter a s).
Proof. intros a. induction a as [|a IH]; intros b s; [reflexivity | ]. cbn [iter Nat.add]. apply IH. Qed.
Lemma iter_steq : forall N s s', steq c s s' -> steq c (iter N s) (iter N s').
Proof. intros N. induction N as [|N IH]; intros s s' H; [exact H | ]. cbn [iter]. apply IH, (step_steq c Hg), H. Qed.

Lemma loop_spec : forall rs stop first last todo k m, first <= k -> last = k + todo -> (k = first /\ k <= 256) \/ ahead c m ->
  let '(k', m') := loop c (fun _ _ => None) rs stop first last k (S todo) m in
  exists j, 1 <= j /\ j <= S todo /\ k' = k + j /\ steq c (view m') (iter j (view m)) /\ 
    (k' = S last -> last <= 256 -> maps_of c (iter (j - 1) (view m)) m') /\ (k' <> S last \/ 256 < last -> ahead c m').
Proof.
  intros rs stop first last todo. induction todo as [|todo IH]; intros k m Hk Hl Hr.
  - cbn [loop].
    destruct (iteration_spec rs first last k m) as (S1 & S2 & S3 & _). { destruct Hr as [[-> Hr]|Hr]; [left; apply is_same_true; split; [reflexivity | exact Hr] | right; exact Hr]. }
    cbv zeta in *. exists 1. split; [lia | ]. split; [lia | ]. split; [lia | ]. split; [exact S1 | ].
    split.
    + intros K1 K2. apply S3. apply is_same_true. lia.
    + intros K1. apply S2. apply is_same_false. lia.
  - change (loop c (fun _ _ => None) rs stop first last k (S (S todo)) m) with
      (let m1 := iteration c (fun _ _ => None) rs first last k m in
       if stop k m1 then (S k, m1) else loop c (fun _ _ => None) rs stop first last (S k) (S todo) m1).
    cbv zeta.
    destruct (iteration_spec rs first last k m) as (S1 & S2 & _). { destruct Hr as [[-> Hr]|Hr]; [left; apply is_same_true; split; [reflexivity | exact Hr] | right; exact Hr]. }
    cbv zeta in *. set (m1 := iteration c (fun _ _ => None) rs first last k m) in *.
    assert (A : ahead c m1). { apply S2. apply is_same_false. left. lia. }
    destruct (stop k m1).
    + exists 1. split; [lia | ]. split; [lia | ]. split; [lia | ]. split; [exact S1 | ]. split; [intros; lia | intros _; exact A].
    + specialize (IH (S k) m1 ltac:(lia) ltac:(lia) (or_intror A)).
      destruct (loop c (fun _ _ => None) rs stop first last (S k) (S todo) m1) as [k' m'].
      destruct IH as (j & J1 & J2 & J3 & J4 & J5 & J6). exists (S j). split; [lia | ]. split; [lia | ]. split; [lia | ]. split.
      * cbn [iter]. apply (steq_trans c _ (iter j (view m1))); [exact J4 | ]. apply iter_steq. exact S1.
      * split; [ | exact J6]. intros K1 K2.
        apply (maps_steq c Hg (iter (j - 1) (view m1))); [ | apply J5; assumption].
        replace (S j - 1) with (S (j - 1)) by lia. cbn [iter]. apply iter_steq. exact S1.
Qed.

(** Iterations performed by a call. *)
Definition done (a : call) (k k' : nat) : nat := if Nat.eqb (c_maxit a) 0 then 0 else k' - k.

Lemma call_spec : forall a k m, fair c (c_sched a) -> k <= 256 \/ ahead c m ->
  let '(k', m') := do_call c a (k, m) in
  k < k' /\ (c_maxit a <> 0 -> k' <= k + c_maxit a) /\ steq c (view m') (iter (done a k k') (view m)) /\
  (ahead c m' \/ k' <= 256 \/ (k' = 257 /\ (k + c_maxit a = 257 \/ c_maxit a = 0))).
Proof.
  intros a k m Hf Hr. unfold do_call, solve, done. rewrite (loop_sched (c_sched a)) by exact Hf.
  destruct (c_maxit a) as [|N] eqn:EN.
  - cbn [loop]. split; [lia | ]. split; [congruence | ]. split; [apply steq_refl | ]. destruct Hr as [Hr|Hr]; [ | left; exact Hr].
    destruct (le_lt_dec (S k) 256); [right; left; assumption | right; right; lia].
  - pose proof (loop_spec (c_rs a) (c_stop a) k (k + S N - 1) N k m (le_n k) ltac:(lia) ltac:(tauto)) as L.
    destruct (loop c (fun _ _ => None) (c_rs a) (c_stop a) k (k + S N - 1) k (S N) m) as [k' m'].
    destruct L as (j & J1 & J2 & J3 & J4 & J5 & J6). split; [lia | ]. split; [lia | ].
    replace (if S N =? 0 then 0 else k' - k) with j by (cbn [Nat.eqb]; lia). split; [exact J4 | ].
    destruct (le_lt_dec k' 256); [right; left; assumption | ].
    destruct (Nat.eq_dec k' (S (k + S N - 1))) as [e|e]; [ | left; apply J6; left; exact e].
    destruct (le_lt_dec (k + S N - 1) 256); [right; right; lia | left; apply J6; right; assumption].
Qed.

(** Total number of iterations, and the condition on the calls. *)
Fixpoint total_done (calls : list call) (km : nat * pmem) : nat :=
  match calls with [] => 0 | a :: r => done a (fst km) (fst (do_call c a km)) + total_done r (do_call c a km) end.
(** No call that is followed by another one ends with iteration 256 as its last. *)
Fixpoint no_gap (calls : list call) (km : nat * pmem) : Prop :=
  match calls with
  | [] => True
  | a :: r => (r <> [] -> ~ (fst (do_call c a km) = 257 /\ (fst km + c_maxit a = 257 \/ c_maxit a = 0))) /\ no_gap r (do_call c a km)
  end.

Lemma calls_spec : forall calls k m, Forall (fun a => fair c (c_sched a)) calls -> no_gap calls (k, m) -> k <= 256 \/ ahead c m ->
  steq c (view (snd (do_calls c calls (k, m)))) (iter (total_done calls (k, m)) (view m)).
Proof.
  intros calls. induction calls as [|a r IH]; intros k m Hf Hn Hr; [apply steq_refl | ].
  inversion Hf as [|x y Ha Hf']; subst. pose proof (call_spec a k m Ha Hr) as S.
  cbn [do_calls fold_left total_done no_gap fst] in *. destruct (do_call c a (k, m)) as [k' m'] eqn:E. cbn [fst] in *.
  destruct S as (_ & _ & S2 & S3). destruct Hn as [Hn1 Hn2].
  rewrite iter_add. destruct r as [|b r].
  - cbn [total_done fold_left iter]. exact S2.
  - apply (steq_trans c _ (iter (total_done (b :: r) (k', m')) (view m'))); [ | apply iter_steq; exact S2].
    apply IH; [exact Hf' | exact Hn2 | ]. destruct S3 as [S3|[S3|S3]]; [right; exact S3 | left; exact S3 | ].
    exfalso. apply (Hn1 ltac:(discriminate)). exact S3.
Qed.

Lemma calls_sched : forall calls km, Forall (fun a => fair c (c_sched a)) calls ->
  do_calls c calls km = do_calls c (map serial calls) km.
Proof.
  intros calls. induction calls as [|a r IH]; intros km Hf; [reflexivity | ].
  inversion Hf as [|x y Ha Hf']; subst. cbn [do_calls fold_left map].
  assert (E : do_call c a km = do_call c (serial a) km).
  { destruct km as [k m]. unfold do_call, solve, serial. cbn [c_sched c_rs c_stop c_maxit]. apply loop_sched. exact Ha. }
  rewrite E. apply IH. exact Hf'.
Qed.
End Loop.
